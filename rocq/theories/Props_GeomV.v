(** C62, C63, C64, C65: geometry of the entities of a mesh.

    Coordinates are exact real numbers and the square root is that of real numbers. Vectors (minus, inner, cprod, len) are defined in GeomProofs.v;
    an outward normal ([outward]) and a local coordinate system ([frame]) in GeomEl.v. *)
From Coq Require Import List Arith Bool Lia Reals Lra Permutation QArith Qreals.
From Verif Require Import Util MeshConn MeshSpec Partition MeshSort MeshAll MeshNorm MeshOrder Props_Mesh GeomV Props_FwaveR GeomProofs GeomEl GeomDia.
Import ListNotations.
Open Scope R_scope.

(** ** Specification *)

(** points of vertices *)
Definition rpt (p : pt) : V := (Q2R (crd p 0), Q2R (crd p 1), Q2R (crd p 2)).
Definition ptOf (crds : list pt) (v : nat) : V := rpt (xyz crds v).
Definition ptsOf (crds : list pt) (l : list nat) : list V := map (ptOf crds) l.

(** Two-dimensional elements are in the plane z = 0, the sides of rectangles and boxes are parallel to the axes. *)
Definition twoValued (c : nat -> Q) (vl : list nat) : Prop := exists lo hi, forall v, In v vl -> (c v == lo \/ c v == hi)%Q.
Definition regular (ty : elType) (crds : list pt) (vl : list nat) : Prop :=
  match ty with
  | TRIA3 => forall v, In v vl -> (Z crds v == 0)%Q
  | QUAD4R => (forall v, In v vl -> (Z crds v == 0)%Q) /\ twoValued (X crds) vl /\ twoValued (Y crds) vl
  | TET4 => True
  | HEX8R => twoValued (X crds) vl /\ twoValued (Y crds) vl /\ twoValued (Z crds) vl
  end.

(** periodic boundaries, if any *)
Definition wfPer (tol : Q) (ty : elType) (crds : list pt) (elFaVe : list (list (list nat))) (groups : list (N * list (list nat))) (per : option N) : Prop :=
  match per with None => True | Some t => wfPeriodic tol ty crds elFaVe groups t end.

(** ** Model, for real numbers *)
Notation getAreas := (GeomV.getAreasFa 0 1 Rplus Rminus Rmult Rdiv Ropp sqrt rltb reqb).
Notation getVolumes := (GeomV.getVolumesEl 0 1 Rplus Rminus Rmult Rdiv Ropp sqrt rltb reqb).
Notation getDiameters := (GeomV.setInDiameter 0 1 Rplus Rminus Rmult Rdiv Ropp sqrt rltb reqb).
Notation getNormals := (GeomV.getNormalsFa 0 1 Rplus Rminus Rmult Rdiv Ropp sqrt rltb).
Notation getTangents := (GeomV.getTangentsFa 0 1 Rplus Rminus Rmult Rdiv Ropp sqrt rltb).

(** ** Elements of the mesh are elements of the geometry *)
Lemma two_lt (c : nat -> Q) (vl : list nat) (lo hi : Q) a b a' b' : (forall v, In v vl -> (c v == lo \/ c v == hi)%Q) -> In a vl -> In b vl -> In a' vl -> In b' vl -> (c a < c b)%Q -> (c a' < c b')%Q ->
  Q2R (c a) = Q2R (c a') /\ Q2R (c b) = Q2R (c b') /\ Q2R (c a) < Q2R (c b).
Proof.
  intros H A B A' B' L L'. destruct (H a A) as [Ea|Ea], (H b B) as [Eb|Eb], (H a' A') as [Ea'|Ea'], (H b' B') as [Eb'|Eb'];
    rewrite ?Ea, ?Eb in L; rewrite ?Ea', ?Eb' in L'; try (exfalso; revert L; apply Qlt_irrefl); try (exfalso; revert L'; apply Qlt_irrefl);
    try (exfalso; apply (Qlt_irrefl lo); eapply Qlt_trans; eassumption).
  all: split; [apply Qeq_eqR; rewrite Ea, Ea'; reflexivity|]; split; [apply Qeq_eqR; rewrite Eb, Eb'; reflexivity|].
  all: apply Qlt_Rlt; rewrite Ea, Eb; exact L.
Qed.

Lemma Q2R_eq0 q : (q == 0)%Q -> Q2R q = 0.
Proof. intros H. rewrite (Qeq_eqR _ _ H). unfold Q2R. cbn. lra. Qed.

Lemma below_lt tol a b : (0 < tol)%Q -> below tol a b -> (a < b)%Q.
Proof. unfold below. intros H1 H2. assert (H := Qlt_trans _ _ _ H1 H2). apply Qlt_minus_iff. exact H. Qed.

Lemma cons_eq {A} (a a' : A) l l' : a = a' -> l = l' -> a :: l = a' :: l'.
Proof. intros -> ->. reflexivity. Qed.
Ltac pts := unfold ptOf, rpt, pt0; repeat (apply cons_eq; [apply V_eq; auto|]); try reflexivity.

Lemma nth8 {A} (l : list A) d : length l = 8%nat -> l = [nth 0 l d; nth 1 l d; nth 2 l d; nth 3 l d; nth 4 l d; nth 5 l d; nth 6 l d; nth 7 l d].
Proof. intros H. do 8 (destruct l as [|? l]; [discriminate|]). destruct l; [reflexivity|discriminate]. Qed.

Lemma placed_elemR tol crds ty ps : (0 < tol)%Q -> placed tol crds ty ps -> regular ty crds ps -> elemR ty (ptsOf crds ps).
Proof.
  intros TOL P Rg. destruct ty; cbn [placed regular elemR] in *.
  - destruct P as (a & b & c & d & -> & P1 & P2 & P3 & P4 & P5 & P6). destruct Rg as (R1 & (xl & xh & R2) & (yl & yh & R3)).
    assert (I : forall v, v = a \/ v = b \/ v = c \/ v = d -> In v [a; b; c; d]) by (intros v [->|[->|[->| ->]]]; cbn; auto).
    destruct (two_lt _ _ _ _ a b d c R2) as (X1 & X2 & X3); auto.
    destruct (two_lt _ _ _ _ a c b d R3) as (Y1 & Y2 & Y3); auto.
    exists (Q2R (X crds a)), (Q2R (X crds b)), (Q2R (Y crds a)), (Q2R (Y crds c)). split; [|split; auto]. unfold ptsOf, map.
    assert (Z0 : forall v, v = a \/ v = b \/ v = c \/ v = d -> Q2R (crd (xyz crds v) 2) = 0) by (intros v Hv; apply Q2R_eq0; apply R1; auto).
    unfold X, Y in *. pts.
  - destruct P as (a & b & c & -> & P). do 6 eexists. split.
    + unfold ptsOf, map. assert (Z0 : forall v, In v [a; b; c] -> Q2R (crd (xyz crds v) 2) = 0) by (intros v Hv; apply Q2R_eq0; apply Rg; exact Hv).
      unfold ptOf, rpt. rewrite !Z0 by (cbn; auto). reflexivity.
    + apply Qlt_Rlt in P. unfold area2 in P. rewrite ?Q2R_minus, ?Q2R_mult, ?Q2R_minus, (Q2R_eq0 0) in P by reflexivity. exact P.
  - destruct P as (L & P). destruct Rg as ((xl & xh & R1) & (yl & yh & R2) & (zl & zh & R3)).
    rewrite (nth8 ps 0%nat L) in R1, R2, R3 |- *. set (v0 := nth 0 ps 0%nat) in *. set (v1 := nth 1 ps 0%nat) in *. set (v2 := nth 2 ps 0%nat) in *. set (v3 := nth 3 ps 0%nat) in *.
    set (v4 := nth 4 ps 0%nat) in *. set (v5 := nth 5 ps 0%nat) in *. set (v6 := nth 6 ps 0%nat) in *. set (v7 := nth 7 ps 0%nat) in *.
    assert (PX : forall k l, (k < 8)%nat -> (l < 8)%nat -> cornerZ k = cornerZ l -> cornerY k = cornerY l -> (cornerX k < cornerX l)%nat -> (X crds (nth k ps 0%nat) < X crds (nth l ps 0%nat))%Q).
    { intros k l Hk Hl H1 H2 H3. apply (below_lt tol); auto. apply (P k l Hk Hl); auto. }
    assert (PY : forall k l, (k < 8)%nat -> (l < 8)%nat -> cornerZ k = cornerZ l -> (cornerY k < cornerY l)%nat -> (Y crds (nth k ps 0%nat) < Y crds (nth l ps 0%nat))%Q).
    { intros k l Hk Hl H1 H2. apply (below_lt tol); auto. apply (P k l Hk Hl); auto. }
    assert (PZ : forall k l, (k < 8)%nat -> (l < 8)%nat -> (cornerZ k < cornerZ l)%nat -> (Z crds (nth k ps 0%nat) < Z crds (nth l ps 0%nat))%Q).
    { intros k l Hk Hl H1. apply (below_lt tol); auto. apply (P k l Hk Hl); auto. }
    assert (X01 := PX 0%nat 1%nat ltac:(lia) ltac:(lia) eq_refl eq_refl ltac:(cbv; lia)). assert (X32 := PX 3%nat 2%nat ltac:(lia) ltac:(lia) eq_refl eq_refl ltac:(cbv; lia)).
    assert (X45 := PX 4%nat 5%nat ltac:(lia) ltac:(lia) eq_refl eq_refl ltac:(cbv; lia)). assert (X76 := PX 7%nat 6%nat ltac:(lia) ltac:(lia) eq_refl eq_refl ltac:(cbv; lia)).
    assert (Y03 := PY 0%nat 3%nat ltac:(lia) ltac:(lia) eq_refl ltac:(cbv; lia)). assert (Y12 := PY 1%nat 2%nat ltac:(lia) ltac:(lia) eq_refl ltac:(cbv; lia)).
    assert (Y47 := PY 4%nat 7%nat ltac:(lia) ltac:(lia) eq_refl ltac:(cbv; lia)). assert (Y56 := PY 5%nat 6%nat ltac:(lia) ltac:(lia) eq_refl ltac:(cbv; lia)).
    assert (Z04 := PZ 0%nat 4%nat ltac:(lia) ltac:(lia) ltac:(cbv; lia)). assert (Z15 := PZ 1%nat 5%nat ltac:(lia) ltac:(lia) ltac:(cbv; lia)).
    assert (Z26 := PZ 2%nat 6%nat ltac:(lia) ltac:(lia) ltac:(cbv; lia)). assert (Z37 := PZ 3%nat 7%nat ltac:(lia) ltac:(lia) ltac:(cbv; lia)).
    fold v0 v1 v2 v3 v4 v5 v6 v7 in X01, X32, X45, X76, Y03, Y12, Y47, Y56, Z04, Z15, Z26, Z37. clear P PX PY PZ. clearbody v0 v1 v2 v3 v4 v5 v6 v7. set (l := [v0; v1; v2; v3; v4; v5; v6; v7]) in *.
    assert (I0 : In v0 l) by (cbn; auto). assert (I1 : In v1 l) by (cbn; auto). assert (I2 : In v2 l) by (cbn; auto). assert (I3 : In v3 l) by (cbn; auto).
    assert (I4 : In v4 l) by (cbn; auto 10). assert (I5 : In v5 l) by (cbn; auto 10). assert (I6 : In v6 l) by (cbn; auto 10). assert (I7 : In v7 l) by (cbn; auto 10).
    destruct (two_lt _ _ _ _ v0 v1 v3 v2 R1) as (A1 & A2 & A3); auto. destruct (two_lt _ _ _ _ v0 v1 v4 v5 R1) as (A4 & A5 & _); auto. destruct (two_lt _ _ _ _ v0 v1 v7 v6 R1) as (A6 & A7 & _); auto.
    destruct (two_lt _ _ _ _ v0 v3 v1 v2 R2) as (B1 & B2 & B3); auto. destruct (two_lt _ _ _ _ v0 v3 v4 v7 R2) as (B4 & B5 & _); auto. destruct (two_lt _ _ _ _ v0 v3 v5 v6 R2) as (B6 & B7 & _); auto.
    destruct (two_lt _ _ _ _ v0 v4 v1 v5 R3) as (C1 & C2 & C3); auto. destruct (two_lt _ _ _ _ v0 v4 v2 v6 R3) as (C4 & C5 & _); auto. destruct (two_lt _ _ _ _ v0 v4 v3 v7 R3) as (C6 & C7 & _); auto.
    exists (Q2R (X crds v0)), (Q2R (X crds v1)), (Q2R (Y crds v0)), (Q2R (Y crds v3)), (Q2R (Z crds v0)), (Q2R (Z crds v4)). split; [|auto].
    subst l. unfold ptsOf, map. unfold X, Y, Z in *. pts.
  - destruct P as (a & b & c & d & -> & P). do 4 eexists. split; [reflexivity|]. apply (Qlt_trans 0) in P; [|exact TOL]. apply Qlt_Rlt in P. unfold volume6 in P.
    rewrite ?Q2R_plus, ?Q2R_mult, ?Q2R_minus, ?Q2R_mult, ?Q2R_minus, (Q2R_eq0 0) in P by reflexivity. unfold ptOf, rpt. vec. exact P.
Qed.

Lemma regular_perm ty crds vl vl' : Permutation vl vl' -> regular ty crds vl -> regular ty crds vl'.
Proof.
  intros P. assert (I : forall v, In v vl' -> In v vl) by (intros v; apply Permutation_in, Permutation_sym; exact P).
  assert (T : forall c, twoValued c vl -> twoValued c vl') by (intros c (lo & hi & H); exists lo, hi; auto).
  destruct ty; cbn [regular]; intuition auto.
Qed.

(** ** Entities of the mesh *)
Lemma getEnVeCrds_ok crds l : (forall v, In v l -> (v < length crds)%nat) -> getEnVeCrds l (map rpt crds) = Ok (ptsOf crds l).
Proof.
  intros H. unfold getEnVeCrds, ptsOf. apply mapM_map. intros v Hv. unfold rd. rewrite nth_error_map. unfold ptOf, xyz.
  destruct (nth_error crds v) as [p|] eqn:E; [|apply nth_error_None in E; specialize (H v Hv); lia]. rewrite (nth_error_nth _ _ _ E). reflexivity.
Qed.

Lemma face_points ty crds ps i : length ps = nElVes ty -> (i < nElFas ty)%nat ->
  Permutation (facePt ty (ptsOf crds ps) i) (ptsOf crds (sortNat (map (fun j => nth j ps 0%nat) (row ty i)))).
Proof.
  intros L Hi. unfold ptsOf. eapply perm_trans; [|apply Permutation_map; apply sortNat_perm]. rewrite map_map. unfold facePt. erewrite map_ext_in; [apply Permutation_refl|].
  intros j Hj. cbn beta. rewrite (nth_indep _ pt0 (ptOf crds 0%nat)); [apply (map_nth (ptOf crds))|]. rewrite map_length, L. eapply row_lt; eauto.
Qed.

Lemma outward_perm ty el el' fc fc' n : Permutation el el' -> Permutation fc fc' -> outward ty el fc n -> outward ty el' fc' n.
Proof.
  intros P1 P2 (H1 & H2 & H3 & H4). assert (I1 : forall v, In v el' -> In v el) by (intros v; apply Permutation_in, Permutation_sym; exact P1).
  assert (I2 : forall v, In v fc' -> In v fc) by (intros v; apply Permutation_in, Permutation_sym; exact P2). split; auto.
Qed.

Lemma nth_error_map_Some {A B} (f : A -> option B) (l : list A) l' i x : map f l = map Some l' -> nth_error l i = Some x -> exists y, nth_error l' i = Some y /\ f x = Some y.
Proof.
  intros E H. assert (X : nth_error (map f l) i = Some (f x)) by (rewrite nth_error_map, H; reflexivity). rewrite E, nth_error_map in X. destruct (nth_error l' i) as [y|]; inversion X. eauto.
Qed.

Section Mesh.
Variable srt : forall A : Type, (A -> A -> bool) -> list A -> list A.
Hypothesis SRT : isSort srt.
Variable tol : Q.
Hypothesis TOL : (0 < tol)%Q.
Variables (ty : elType) (crds : list pt) (elVe : list (list nat)) (elFaVe : list (list (list nat))) (groups : list (N * list (list nat))) (per : option N).
Hypothesis W : wfMesh tol ty crds elVe elFaVe.
Hypothesis G : wfGroups elFaVe groups.
Hypothesis Wp : wfPer tol ty crds elFaVe groups per.
Hypothesis Rg : forall el, In el elVe -> regular ty crds el.

Lemma mesh_any : exists m, mkMeshOf srt tol ty crds elVe elFaVe groups per = Ok m /\ facesOk elFaVe m /\ elementsOk tol ty crds elVe m /\
  forall f, (f < length (mFaVe m))%nat -> exists el i o, elFace m el i = Some f /\ nth_error (mFaEl m) f = Some (el, o).
Proof.
  destruct per as [t|].
  - destruct (C51_periodic srt SRT tol TOL ty crds elVe elFaVe groups t W G Wp) as (m & H1 & H2 & H3 & _ & H4 & _). exists m. auto.
  - destruct (mesh_ok srt SRT tol TOL ty crds elVe elFaVe groups W G) as (m & H1 & H2 & H3 & _ & H4 & _). exists m. auto.
Qed.

Variable m : mesh.
Hypothesis Fk : facesOk elFaVe m.
Hypothesis Ek : elementsOk tol ty crds elVe m.
Hypothesis Ow : forall f, (f < length (mFaVe m))%nat -> exists el i o, elFace m el i = Some f /\ nth_error (mFaEl m) f = Some (el, o).

Lemma el_ok el e : nth_error (mEls m) el = Some e -> exists vl, nth_error elVe el = Some vl /\ Permutation vl (vesOf e) /\ elemR ty (ptsOf crds (vesOf e)) /\ NoDup (vesOf e) /\
  length (vesOf e) = nElVes ty /\ length (fasOf e) = nElFas ty /\ (forall v, In v (vesOf e) -> (v < length crds)%nat) /\
  forall i f, nth_error (fasOf e) i = Some f -> (i < nElFas ty)%nat /\ nth_error (mFaVe m) f = Some (sortNat (map (fun j => nth j (vesOf e) 0%nat) (row ty i))).
Proof.
  clear Ow Fk G Wp SRT.
  intros He. destruct Ek as [L E]. destruct (nth_error elVe el) as [vl|] eqn:Ev; [|apply nth_error_None in Ev; assert (el < length (mEls m))%nat by (apply nth_error_Some; congruence); lia].
  destruct (E el vl Ev) as (e' & He' & P & Pl & L1 & L2 & F). replace e' with e in * by congruence. exists vl. split; [reflexivity|]. split; [exact P|].
  destruct W as (_ & LE & Sh & _ & W'). destruct (nth_error elFaVe el) as [rw|] eqn:Er; [|apply nth_error_None in Er; assert (el < length elVe)%nat by (apply nth_error_Some; congruence); lia].
  destruct (W' el vl rw Ev Er) as (ND & B & _). assert (LP := placed_len tol crds ty _ Pl).
  split; [apply (placed_elemR tol); auto; apply (regular_perm ty crds vl); auto; apply Rg; eapply nth_error_In; eauto|].
  split; [eapply Permutation_NoDup; eauto|]. split; [exact LP|]. split; [exact L1|]. split; [intros v Hv; apply B; eapply Permutation_in; [apply Permutation_sym; exact P|exact Hv]|].
  intros i f Hi. assert (Hlt : (i < nElFas ty)%nat) by (rewrite <- L1; apply nth_error_Some; congruence). split; [exact Hlt|].
  destruct (nth_error_map_Some _ _ _ _ _ F Hi) as (k & K1 & K2). rewrite K2. unfold facesOf in K1. rewrite nth_error_map in K1. unfold row.
  destruct (nth_error (refFaces ty) i) as [r|] eqn:Hr; [|discriminate]. inversion K1; subst. rewrite (nth_error_nth _ _ _ Hr). reflexivity.
Qed.

Lemma row_eq el e i f k : nth_error (mEls m) el = Some e -> nth_error (fasOf e) i = Some f -> nth_error (mFaVe m) f = Some k ->
  (i < nElFas ty)%nat /\ Permutation (facePt ty (ptsOf crds (vesOf e)) i) (ptsOf crds k) /\ (forall v, In v k <-> exists j, In j (row ty i) /\ v = nth j (vesOf e) 0%nat) /\
  (forall v, In v k -> In v (vesOf e)).
Proof.
  clear Ow Fk G Wp SRT.
  intros He Hf Hk. destruct (el_ok el e He) as (vl & Ev & P & ER & ND & LV & LF & B & F). destruct (F i f Hf) as (Hi & E). split; [exact Hi|]. assert (k = sortNat (map (fun j => nth j (vesOf e) 0%nat) (row ty i))) by congruence.
  subst k. split; [apply face_points; auto|].
  assert (S : forall v, In v (sortNat (map (fun j => nth j (vesOf e) 0%nat) (row ty i))) <-> exists j, In j (row ty i) /\ v = nth j (vesOf e) 0%nat).
  { intros v. split.
    - intros H. apply (Permutation_in v (Permutation_sym (sortNat_perm _))) in H. apply in_map_iff in H as (j & <- & Hj). eauto.
    - intros (j & Hj & ->). apply (Permutation_in _ (sortNat_perm _)). apply (in_map (fun j => nth j (vesOf e) 0%nat)). exact Hj. }
  split; [exact S|]. intros v Hv. apply S in Hv as (j & Hj & ->). apply nth_In. rewrite LV. eapply row_lt; eauto.
Qed.

Lemma faceNp_ok f k el o e i : nth_error (mFaVe m) f = Some k -> nth_error (mFaEl m) f = Some (el, o) -> nth_error (mEls m) el = Some e -> nth_error (fasOf e) i = Some f ->
  exists np, faceNp (map rpt crds) (mFaVe m) (mFaEl m) (map vesOf (mEls m)) f = Ok (ptsOf crds k, np) /\
    exists j, (j < nElVes ty)%nat /\ ~ In j (row ty i) /\ np = nth j (ptsOf crds (vesOf e)) pt0.
Proof.
  clear Ow Fk G Wp SRT.
  intros Hk Ho He Hi. destruct (el_ok el e He) as (vl & Ev & P & ER & ND & LV & LF & B & F). destruct (row_eq el e i f k He Hi Hk) as (Hlt & PF & S & SV).
  unfold faceNp. unfold rd at 1. rewrite Hk. cbn [bind]. rewrite getEnVeCrds_ok by (intros v Hv; apply B; auto). cbn [bind]. unfold rd at 1. rewrite Ho. cbn [bind fst]. unfold rd at 1. rewrite nth_error_map, He. cbn [option_map bind].
  unfold getAddEntry. destruct (find _ (vesOf e)) as [s|] eqn:Fd.
  - apply find_some in Fd as (Hs & Nx). apply negb_true_iff in Nx. assert (NI : ~ In s k).
    { intros X. assert (T : existsb (fun f => s =? f)%nat k = true) by (apply existsb_exists; exists s; split; [exact X|apply Nat.eqb_refl]). congruence. }
    apply (In_nth _ _ 0%nat) in Hs as (j & Hj & Es). exists (ptOf crds s). split.
    + unfold rd. rewrite nth_error_map. unfold ptOf, xyz. assert (Bs : (s < length crds)%nat) by (apply B; rewrite <- Es; apply nth_In; exact Hj).
      destruct (nth_error crds s) as [p|] eqn:E; [|apply nth_error_None in E; lia]. rewrite (nth_error_nth _ _ _ E). reflexivity.
    + exists j. split; [lia|]. split; [intros X; apply NI; apply S; exists j; auto|]. unfold ptsOf. rewrite (nth_indep _ pt0 (ptOf crds 0%nat)) by (rewrite map_length; lia).
      rewrite map_nth, Es. reflexivity.
  - exfalso. destruct (opp_ok ty i Hlt) as (O1 & O2). assert (X := find_none _ _ Fd (nth (opp ty i) (vesOf e) 0%nat)). cbn beta in X. specialize (X ltac:(apply nth_In; lia)).
    apply negb_false_iff, existsb_exists in X as (v & Hv & Ev'). apply Nat.eqb_eq in Ev'. subst v. apply S in Hv as (j & Hj & E). apply O2.
    replace (opp ty i) with j; [exact Hj|]. eapply NoDup_nth; [exact ND| | |symmetry; exact E]; [|lia]. rewrite LV. eapply row_lt; eauto.
Qed.

Lemma owner_ok f : (f < length (mFaVe m))%nat -> exists k el o e i np, nth_error (mFaVe m) f = Some k /\ nth_error (mFaEl m) f = Some (el, o) /\ nth_error (mEls m) el = Some e /\ nth_error (fasOf e) i = Some f /\
  faceNp (map rpt crds) (mFaVe m) (mFaEl m) (map vesOf (mEls m)) f = Ok (ptsOf crds k, np) /\
    exists j, (j < nElVes ty)%nat /\ ~ In j (row ty i) /\ np = nth j (ptsOf crds (vesOf e)) pt0.
Proof.
  intros Hf. destruct (nth_error (mFaVe m) f) as [k|] eqn:Hk; [|apply nth_error_None in Hk; lia]. destruct (Ow f Hf) as (el & i & o & H1 & H2).
  unfold elFace in H1. destruct (nth_error (mEls m) el) as [e|] eqn:He; [|discriminate]. destruct (faceNp_ok f k el o e i Hk H2 He H1) as (np & N1 & N2). exists k, el, o, e, i, np. auto 10.
Qed.

Lemma seq_mapM {B} (g : nat -> res B) n : (forall f, (f < n)%nat -> exists b, g f = Ok b) -> exists r, mapM g (seq 0 n) = Ok r /\ length r = n /\ forall f, (f < n)%nat -> exists b, g f = Ok b /\ nth_error r f = Some b.
Proof.
  intros H. destruct (mapM_ok g (fun a b => g a = Ok b) (seq 0 n)) as (r & R1 & _).
  { intros a Ha. apply in_seq in Ha. destruct (H a) as (b & Hb); [lia|]. eauto. }
  exists r. split; [exact R1|]. destruct (mapM_nth _ _ _ R1) as (L & N). rewrite seq_length in L. split; [exact L|]. intros f Hf. apply N. rewrite nth_error_seq; [reflexivity|exact Hf].
Qed.

Lemma frames_ok : exists ns ts, getNormals ty (map rpt crds) (mFaVe m) (mFaEl m) (map vesOf (mEls m)) = Ok ns /\
  getTangents ty (map rpt crds) (mFaVe m) (mFaEl m) (map vesOf (mEls m)) = Ok ts /\ length ns = length (mFaVe m) /\ length ts = length (mFaVe m) /\
  forall f k el o vl, nth_error (mFaVe m) f = Some k -> nth_error (mFaEl m) f = Some (el, o) -> nth_error elVe el = Some vl ->
    exists n t0 t1, nth_error ns f = Some n /\ nth_error ts f = Some (t0, t1) /\
      outward ty (ptsOf crds vl) (ptsOf crds k) n /\ (forall n', outward ty (ptsOf crds vl) (ptsOf crds k) n' -> n' = n) /\ frame ty n t0 t1.
Proof.
  assert (K : forall f, (f < length (mFaVe m))%nat -> exists x, faceNp (map rpt crds) (mFaVe m) (mFaEl m) (map vesOf (mEls m)) f = Ok x /\
    exists k el o e i t0 t1, nth_error (mFaVe m) f = Some k /\ nth_error (mFaEl m) f = Some (el, o) /\ nth_error (mEls m) el = Some e /\ nth_error (fasOf e) i = Some f /\
      normal (faOf ty) (fst x) (snd x) = Ok (unitV ty (ptsOf crds (vesOf e)) i) /\ tangents (faOf ty) (fst x) (snd x) = Ok (t0, t1) /\ frame ty (unitV ty (ptsOf crds (vesOf e)) i) t0 t1).
  { intros f Hf. destruct (owner_ok f Hf) as (k & el & o & e & i & np & Hk & Ho & He & Hi & Hn & Hnp). eexists. split; [exact Hn|]. cbn [fst snd].
    destruct (el_ok el e He) as (_ & _ & _ & ER & _). destruct (row_eq el e i f k He Hi Hk) as (Hlt & PF & _).
    destruct (face_frame ty _ i (ptsOf crds k) np ER Hlt PF Hnp) as (t0 & t1 & F1 & F2 & F3). exists k, el, o, e, i, t0, t1. auto 10. }
  unfold getNormalsFa, getTangentsFa.
  destruct (seq_mapM (fun f => x <- faceNp (map rpt crds) (mFaVe m) (mFaEl m) (map vesOf (mEls m)) f;; normal (faOf ty) (fst x) (snd x)) (length (mFaVe m))) as (ns & N1 & N2 & N3).
  { intros f Hf. destruct (K f Hf) as (x & X & k & el & o & e & i & t0 & t1 & _ & _ & _ & _ & Y & _). rewrite X. cbn [bind]. eauto. }
  destruct (seq_mapM (fun f => x <- faceNp (map rpt crds) (mFaVe m) (mFaEl m) (map vesOf (mEls m)) f;; tangents (faOf ty) (fst x) (snd x)) (length (mFaVe m))) as (ts & T1 & T2 & T3).
  { intros f Hf. destruct (K f Hf) as (x & X & k & el & o & e & i & t0 & t1 & _ & _ & _ & _ & _ & Y & _). rewrite X. cbn [bind]. eauto. }
  exists ns, ts. split; [exact N1|]. split; [exact T1|]. split; [exact N2|]. split; [exact T2|].
  intros f k el o vl Hk Ho Hv. assert (Hf : (f < length (mFaVe m))%nat) by (apply nth_error_Some; congruence).
  destruct (K f Hf) as (x & X & k' & el' & o' & e & i & t0 & t1 & Hk' & Ho' & He & Hi & Y1 & Y2 & FR). assert (k' = k) by congruence. assert (el' = el) by congruence. subst k' el'.
  destruct (N3 f Hf) as (n & Bn & Nn). destruct (T3 f Hf) as (t & Bt & Nt). rewrite X in Bn, Bt. cbn [bind] in Bn, Bt. exists n, t0, t1. split; [exact Nn|].
  assert (t = (t0, t1)) by congruence. subst t. split; [exact Nt|]. assert (n = unitV ty (ptsOf crds (vesOf e)) i) by congruence. subst n.
  destruct (el_ok el e He) as (vl' & Ev & P & ER & _). assert (vl' = vl) by congruence. subst vl'. destruct (row_eq el e i f k He Hi Hk) as (Hlt & PF & _).
  assert (PV : Permutation (ptsOf crds (vesOf e)) (ptsOf crds vl)) by (apply Permutation_map, Permutation_sym; exact P).
  split; [|split; [|exact FR]].
  - eapply outward_perm; [exact PV|exact PF|]. apply unitV_outward; auto.
  - intros n' On'. apply outward_is; auto. eapply outward_perm; [apply Permutation_sym; exact PV|apply Permutation_sym; exact PF|exact On'].
Qed.

(** the other element of a face is on one of the two sides *)
Lemma other_side f k el e i n : nth_error (mFaVe m) f = Some k -> nth_error (mEls m) el = Some e -> nth_error (fasOf e) i = Some f ->
  inner n n = 1 -> (is2d ty = true -> pz n = 0) -> (forall v w, In v (ptsOf crds k) -> In w (ptsOf crds k) -> inner n (minus v w) = 0) ->
  outward ty (ptsOf crds (vesOf e)) (ptsOf crds k) n \/ outward ty (ptsOf crds (vesOf e)) (ptsOf crds k) (scale (-1) n).
Proof.
  clear Ow Fk G Wp SRT.
  intros Hk He Hi H1 H2 H3. destruct (el_ok el e He) as (vl & Ev & P & ER & _). destruct (row_eq el e i f k He Hi Hk) as (Hlt & PF & _).
  assert (L := row_len ty i Hlt). set (p := ptsOf crds (vesOf e)) in *. destruct (opp_ok ty i Hlt) as (O1 & O2).
  assert (IF : forall j, (j < nFaVes ty)%nat -> In (fv ty p i j) (ptsOf crds k)) by (intros j Hj; apply (Permutation_in _ PF); apply fv_in; lia).
  assert (NV : (2 <= nFaVes ty)%nat /\ (is2d ty = false -> (3 <= nFaVes ty)%nat)) by (destruct ty; cbn; split; intros; try discriminate; lia).
  assert (DW : inner n (dirW ty p i) = 0).
  { destruct (is2d ty) eqn:D.
    - assert (E : dirW ty p i = ez) by (destruct ty; try discriminate D; reflexivity). rewrite E. specialize (H2 eq_refl). destruct n as [[? ?] ?]. unfold ez. vec. subst. ring.
    - assert (E : dirW ty p i = minus (fv ty p i 2) (fv ty p i 0)) by (destruct ty; try discriminate D; reflexivity). rewrite E. apply H3; apply IF; destruct NV as (NV1 & NV2); specialize (NV2 eq_refl); lia. }
  assert (DU : inner n (dirU ty p i) = 0) by (unfold dirU; apply H3; apply IF; lia).
  set (q := minus (nth (opp ty i) p pt0) (fv ty p i 0)).
  assert (Nq : inner (outV ty p i) q < 0) by (apply outV_out; auto).
  assert (HN := outV_pos ty p i ER Hlt).
  destruct (Rle_dec (inner n q) 0) as [Lq|Lq].
  - left. rewrite (outward_unique _ _ n (outV ty p i) q eq_refl HN DU DW H1 Lq Nq). eapply outward_perm; [apply Permutation_refl|exact PF|]. apply unitV_outward; auto.
  - right. assert (E : scale (-1) n = scale (/ len (outV ty p i)) (outV ty p i)).
    { apply (outward_unique (dirU ty p i) (dirW ty p i) _ _ q); auto; rewrite ?inner_scale; try (rewrite ?DU, ?DW; ring); try lra.
      transitivity (inner n n); [|exact H1]. destruct n as [[? ?] ?]. vec. ring. }
    rewrite E. eapply outward_perm; [apply Permutation_refl|exact PF|]. apply unitV_outward; auto.
Qed.

Lemma areas_ok : exists ar, getAreas ty (map rpt crds) (mFaVe m) = Ok ar /\ length ar = length (mFaVe m) /\
  forall el e i f, nth_error (mEls m) el = Some e -> nth_error (fasOf e) i = Some f -> nth f ar 0 = fac ty * len (outV ty (ptsOf crds (vesOf e)) i).
Proof.
  assert (K : forall el e i f k, nth_error (mEls m) el = Some e -> nth_error (fasOf e) i = Some f -> nth_error (mFaVe m) f = Some k ->
    (v <- getEnVeCrds k (map rpt crds);; volume (faOf ty) v) = Ok (fac ty * len (outV ty (ptsOf crds (vesOf e)) i))).
  { intros el e i f k He Hi Hk. destruct (el_ok el e He) as (vl & Ev & P & ER & ND & LV & LF & B & F). destruct (row_eq el e i f k He Hi Hk) as (Hlt & PF & S & SV).
    rewrite getEnVeCrds_ok by (intros v Hv; apply B; auto). cbn [bind]. apply face_area; auto. }
  unfold getAreasFa. destruct (mapM_ok (fun k => v <- getEnVeCrds k (map rpt crds);; volume (faOf ty) v) (fun _ _ => True) (mFaVe m)) as (ar & A & _).
  { intros k Hk. apply In_nth_error in Hk as (f & Hk). assert (Hf : (f < length (mFaVe m))%nat) by (apply nth_error_Some; congruence).
    destruct (Ow f Hf) as (el & i & o & H1 & _). unfold elFace in H1. destruct (nth_error (mEls m) el) as [e|] eqn:He; [|discriminate]. eexists. split; [exact (K el e i f k He H1 Hk)|trivial]. }
  exists ar. split; [exact A|]. destruct (mapM_nth _ _ _ A) as (L & N). split; [exact L|]. intros el e i f He Hi.
  destruct (el_ok el e He) as (_ & _ & _ & _ & _ & _ & _ & _ & F). destruct (F i f Hi) as (_ & Hk). destruct (N f _ Hk) as (b & B1 & B2). rewrite (K el e i f _ He Hi Hk) in B1.
  rewrite (nth_error_nth _ _ _ B2). congruence.
Qed.

Lemma volumes_ok : exists vs, getVolumes ty (map rpt crds) (map vesOf (mEls m)) = Ok vs /\ length vs = length elVe /\
  forall el e, nth_error (mEls m) el = Some e -> nth el vs 0 = volR ty (ptsOf crds (vesOf e)).
Proof.
  clear Ow Fk G Wp SRT.
  assert (K : forall el e, nth_error (mEls m) el = Some e -> (v <- getEnVeCrds (vesOf e) (map rpt crds);; volume (enOf ty) v) = Ok (volR ty (ptsOf crds (vesOf e)))).
  { intros el e He. destruct (el_ok el e He) as (vl & Ev & P & ER & ND & LV & LF & B & F). rewrite getEnVeCrds_ok by auto. cbn [bind]. apply volume_ok; auto. }
  unfold getVolumesEl. destruct (mapM_ok (fun e => v <- getEnVeCrds e (map rpt crds);; volume (enOf ty) v) (fun _ _ => True) (map vesOf (mEls m))) as (vs & A & _).
  { intros a Ha. apply in_map_iff in Ha as (e & <- & He). apply In_nth_error in He as (el & He). eexists. split; [exact (K el e He)|trivial]. }
  exists vs. split; [exact A|]. destruct (mapM_nth _ _ _ A) as (L & N). split; [rewrite L, map_length; apply Ek|]. intros el e He.
  destruct (N el (vesOf e)) as (b & B1 & B2); [rewrite nth_error_map, He; reflexivity|]. rewrite (K el e He) in B1. rewrite (nth_error_nth _ _ _ B2). congruence.
Qed.

Lemma diameters_ok : exists ds, getDiameters ty (map rpt crds) elVe = Ok ds /\ length ds = length elVe /\
  forall el e, nth_error (mEls m) el = Some e -> nth el ds 0 = diaR ty (ptsOf crds (vesOf e)).
Proof.
  clear Ow Fk G Wp SRT.
  assert (K : forall el e vl, nth_error (mEls m) el = Some e -> nth_error elVe el = Some vl -> (v <- getEnVeCrds vl (map rpt crds);; inDiameter (enOf ty) v) = Ok (diaR ty (ptsOf crds (vesOf e)))).
  { intros el e vl He Hv. destruct (el_ok el e He) as (vl' & Ev & P & ER & ND & LV & LF & B & F). assert (vl' = vl) by congruence. subst vl'.
    rewrite getEnVeCrds_ok by (intros v Hin; apply B; apply (Permutation_in _ P); exact Hin). cbn [bind]. apply inDia_ok; auto. apply Permutation_map, Permutation_sym. exact P. }
  unfold setInDiameter. assert (LE : length (mEls m) = length elVe) by apply Ek.
  destruct (mapM_ok (fun e => v <- getEnVeCrds e (map rpt crds);; inDiameter (enOf ty) v) (fun _ _ => True) elVe) as (ds & A & _).
  { intros a Ha. apply In_nth_error in Ha as (el & Ha). destruct (nth_error (mEls m) el) as [e|] eqn:He; [|apply nth_error_None in He; assert (el < length elVe)%nat by (apply nth_error_Some; congruence); lia].
    eexists. split; [exact (K el e a He Ha)|trivial]. }
  exists ds. split; [exact A|]. destruct (mapM_nth _ _ _ A) as (L & N). split; [exact L|]. intros el e He.
  destruct (el_ok el e He) as (vl & Ev & _). destruct (N el vl Ev) as (b & B1 & B2). rewrite (K el e vl He Ev) in B1. rewrite (nth_error_nth _ _ _ B2). congruence.
Qed.
End Mesh.

Section Props.
Variable srt : forall A : Type, (A -> A -> bool) -> list A -> list A.
Variable tol : Q.

(** C62: every face has a unit normal which points out of the face's first element, and tangents which complete it to an orthonormal, right-handed
    system.  The normal is the only one with this property. *)
Theorem C62_frames ty crds elVe elFaVe groups per : isSort srt -> (0 < tol)%Q ->
  wfMesh tol ty crds elVe elFaVe -> wfGroups elFaVe groups -> wfPer tol ty crds elFaVe groups per -> (forall el, In el elVe -> regular ty crds el) ->
  exists m ns ts, mkMeshOf srt tol ty crds elVe elFaVe groups per = Ok m /\
    getNormals ty (map rpt crds) (mFaVe m) (mFaEl m) (map vesOf (mEls m)) = Ok ns /\
    getTangents ty (map rpt crds) (mFaVe m) (mFaEl m) (map vesOf (mEls m)) = Ok ts /\
    length ns = length (mFaVe m) /\ length ts = length (mFaVe m) /\ length (mFaEl m) = length (mFaVe m) /\
    forall f k el o, nth_error (mFaVe m) f = Some k -> nth_error (mFaEl m) f = Some (el, o) ->
      exists vl n t0 t1, nth_error elVe el = Some vl /\ nth_error ns f = Some n /\ nth_error ts f = Some (t0, t1) /\
        outward ty (ptsOf crds vl) (ptsOf crds k) n /\ (forall n', outward ty (ptsOf crds vl) (ptsOf crds k) n' -> n' = n) /\ frame ty n t0 t1.
Proof.
  intros SRT TOL W G Wp Rg. destruct (mesh_any srt SRT tol TOL ty crds elVe elFaVe groups per W G Wp) as (m & E & F & El & Ow).
  destruct (frames_ok tol TOL ty crds elVe elFaVe W Rg m El Ow) as (ns & ts & N1 & N2 & N3 & N4 & N5). exists m, ns, ts.
  split; [exact E|]. split; [exact N1|]. split; [exact N2|]. split; [exact N3|]. split; [exact N4|]. split; [apply F|]. intros f k el o Hk Ho.
  destruct (owner_ok tol TOL ty crds elVe elFaVe W Rg m El Ow f) as (k' & el' & o' & e & i & np & Hk' & Ho' & He & _); [apply nth_error_Some; congruence|].
  assert (el' = el) by congruence. subst el'. destruct (el_ok tol TOL ty crds elVe elFaVe W Rg m El el e He) as (vl & Ev & _).
  destruct (N5 f k el o vl Hk Ho Ev) as (n & t0 & t1 & H1 & H2 & H3 & H4 & H5). exists vl, n, t0, t1. auto 10.
Qed.

(** C62: for every element which has the face, either the face's normal or its opposite points out of the element. *)
Theorem C62_sides ty crds elVe elFaVe groups per : isSort srt -> (0 < tol)%Q ->
  wfMesh tol ty crds elVe elFaVe -> wfGroups elFaVe groups -> wfPer tol ty crds elFaVe groups per -> (forall el, In el elVe -> regular ty crds el) ->
  exists m ns, mkMeshOf srt tol ty crds elVe elFaVe groups per = Ok m /\
    getNormals ty (map rpt crds) (mFaVe m) (mFaEl m) (map vesOf (mEls m)) = Ok ns /\
    forall el i f, elFace m el i = Some f -> exists vl k n, nth_error elVe el = Some vl /\ nth_error (mFaVe m) f = Some k /\ nth_error ns f = Some n /\
      (outward ty (ptsOf crds vl) (ptsOf crds k) n \/ outward ty (ptsOf crds vl) (ptsOf crds k) (scale (-1) n)).
Proof.
  intros SRT TOL W G Wp Rg. destruct (mesh_any srt SRT tol TOL ty crds elVe elFaVe groups per W G Wp) as (m & E & F & El & Ow).
  destruct (frames_ok tol TOL ty crds elVe elFaVe W Rg m El Ow) as (ns & ts & N1 & N2 & N3 & N4 & N5). exists m, ns.
  split; [exact E|]. split; [exact N1|]. intros el i f Hf. unfold elFace in Hf. destruct (nth_error (mEls m) el) as [e|] eqn:He; [|discriminate].
  destruct (el_ok tol TOL ty crds elVe elFaVe W Rg m El el e He) as (vl & Ev & P & ER & ND & LV & LF & B & FF). destruct (FF i f Hf) as (Hi & Hk).
  destruct (owner_ok tol TOL ty crds elVe elFaVe W Rg m El Ow f) as (k' & el' & o' & e' & i' & np & Hk' & Ho' & He' & _); [apply nth_error_Some; congruence|].
  destruct (el_ok tol TOL ty crds elVe elFaVe W Rg m El el' e' He') as (vl' & Ev' & _). destruct (N5 f k' el' o' vl' Hk' Ho' Ev') as (n & t0 & t1 & H1 & _ & (U1 & U2 & U3 & _) & _).
  exists vl, k', n. split; [exact Ev|]. split; [exact Hk'|]. split; [exact H1|].
  destruct (other_side tol TOL ty crds elVe elFaVe W Rg m El f k' el e i n Hk' He Hf U1 U2 U3) as [O|O]; [left|right];
    (eapply outward_perm; [apply Permutation_map, Permutation_sym; exact P|apply Permutation_refl|exact O]).
Qed.

Lemma vsum_scale s l : vsum (map (fun v => scale s v) l) = scale s (vsum l).
Proof. induction l as [|a l IH]; cbn [map vsum fold_right]; [vec; apply V_eq; ring|]. unfold vsum in IH. rewrite IH. destruct a as [[? ?] ?]. destruct (fold_right plus (0, 0, 0) l) as [[? ?] ?]. vec. apply V_eq; ring. Qed.

(** C63: the areas of an element's faces and the outward normals fit together (closed surface), and fit the element's volume (divergence theorem
    for the linear field which points away from an arbitrary point [c]). *)
Theorem C63_volumes ty crds elVe elFaVe groups per : isSort srt -> (0 < tol)%Q ->
  wfMesh tol ty crds elVe elFaVe -> wfGroups elFaVe groups -> wfPer tol ty crds elFaVe groups per -> (forall el, In el elVe -> regular ty crds el) ->
  exists m ar vs, mkMeshOf srt tol ty crds elVe elFaVe groups per = Ok m /\
    getAreas ty (map rpt crds) (mFaVe m) = Ok ar /\ getVolumes ty (map rpt crds) (map vesOf (mEls m)) = Ok vs /\
    length ar = length (mFaVe m) /\ length vs = length elVe /\ (forall f, (f < length ar)%nat -> 0 < nth f ar 0) /\
    forall el e (n w : nat -> V) c, nth_error (mEls m) el = Some e ->
      (forall i f k, nth_error (fasOf e) i = Some f -> nth_error (mFaVe m) f = Some k -> outward ty (ptsOf crds (vesOf e)) (ptsOf crds k) (n i) /\ In (w i) (ptsOf crds k)) ->
      let area i := nth (nth i (fasOf e) 0%nat) ar 0 in
      0 < nth el vs 0 /\
      vsum (map (fun i => scale (area i) (n i)) (seq 0 (nElFas ty))) = (0, 0, 0) /\
      INR (nDis ty) * nth el vs 0 = rsum (map (fun i => area i * inner (n i) (minus (w i) c)) (seq 0 (nElFas ty))).
Proof.
  intros SRT TOL W G Wp Rg. destruct (mesh_any srt SRT tol TOL ty crds elVe elFaVe groups per W G Wp) as (m & E & F & El & Ow).
  destruct (areas_ok tol TOL ty crds elVe elFaVe W Rg m El Ow) as (ar & A1 & A2 & A3). destruct (volumes_ok tol TOL ty crds elVe elFaVe W Rg m El) as (vs & V1 & V2 & V3).
  exists m, ar, vs. split; [exact E|]. split; [exact A1|]. split; [exact V1|]. split; [exact A2|]. split; [exact V2|]. split.
  { intros f Hf. rewrite A2 in Hf. destruct (Ow f Hf) as (el & i & o & H1 & _). unfold elFace in H1. destruct (nth_error (mEls m) el) as [e|] eqn:He; [|discriminate].
    rewrite (A3 el e i f He H1). destruct (el_ok tol TOL ty crds elVe elFaVe W Rg m El el e He) as (vl & Ev & P & ER & ND & LV & LF & B & FF). destruct (FF i f H1) as (Hi & _).
    apply Rmult_lt_0_compat; [destruct ty; cbn; lra|]. apply len_pos. apply outV_pos; auto. }
  intros el e n w c He H area. destruct (el_ok tol TOL ty crds elVe elFaVe W Rg m El el e He) as (vl & Ev & P & ER & ND & LV & LF & B & FF). set (p := ptsOf crds (vesOf e)) in *.
  assert (Hi : forall i, (i < nElFas ty)%nat -> area i = fac ty * len (outV ty p i) /\ n i = unitV ty p i /\ In (w i) (facePt ty p i)).
  { intros i Hi. destruct (nth_error (fasOf e) i) as [f|] eqn:Hf; [|apply nth_error_None in Hf; lia]. destruct (FF i f Hf) as (_ & Hk).
    destruct (row_eq tol TOL ty crds elVe elFaVe W Rg m El el e i f _ He Hf Hk) as (_ & PF & _). destruct (H i f _ Hf Hk) as (O & I). split; [|split].
    - unfold area. rewrite (nth_error_nth _ _ _ Hf). apply (A3 el e i f He Hf).
    - apply outward_is; auto. eapply outward_perm; [apply Permutation_refl|apply Permutation_sym; exact PF|exact O].
    - apply (Permutation_in _ (Permutation_sym PF)). exact I. }
  rewrite (V3 el e He). fold p. split; [apply volR_pos; exact ER|]. assert (UL : forall i, (i < nElFas ty)%nat -> scale (area i) (n i) = scale (fac ty) (outV ty p i)).
  { intros i Hlt. destruct (Hi i Hlt) as (E1 & E2 & _). rewrite E1, E2. unfold unitV. assert (HP := len_pos _ (outV_pos ty p i ER Hlt)). destruct (outV ty p i) as [[x y] z] eqn:EO. rewrite <- EO in *.
    set (l := len (outV ty p i)) in *. rewrite EO. vec. apply V_eq; field; lra. }
  split.
  - erewrite map_ext_in; [|intros i Hin; apply in_seq in Hin; apply UL; lia]. rewrite <- (map_map (outV ty p) (fun v => scale (fac ty) v)), vsum_scale, (outV_sum ty p ER). vec. apply V_eq; ring.
  - rewrite (gauss ty p c ER). f_equal. apply map_ext_in. intros i Hin. apply in_seq in Hin. assert (Hlt : (i < nElFas ty)%nat) by lia. destruct (Hi i Hlt) as (_ & _ & Hw).
    rewrite <- inner_scale. rewrite <- (inner_scale (area i)). rewrite (UL i Hlt). rewrite !inner_scale. f_equal.
    rewrite (inner_diff (outV ty p i) (fv ty p i 0) c (w i)), (inner_diff (outV ty p i) (w i) c (w i)). rewrite (outV_face ty p i (fv ty p i 0) (w i) ER Hlt); auto.
    + rewrite (outV_face ty p i (w i) (w i) ER Hlt); auto.
    + apply fv_in. rewrite (row_len ty i Hlt). destruct ty; cbn; lia.
Qed.

(** C64: volumes, diameters and areas do not depend on the order in which the vertices of an element or of a face are given. *)
Theorem C64_order ty crds elVe elFaVe groups per elVe' : isSort srt -> (0 < tol)%Q ->
  wfMesh tol ty crds elVe elFaVe -> wfGroups elFaVe groups -> wfPer tol ty crds elFaVe groups per -> (forall el, In el elVe -> regular ty crds el) ->
  Forall2 (@Permutation nat) elVe elVe' ->
  exists m vs ds ar, mkMeshOf srt tol ty crds elVe elFaVe groups per = Ok m /\
    getVolumes ty (map rpt crds) elVe = Ok vs /\ getVolumes ty (map rpt crds) elVe' = Ok vs /\ getVolumes ty (map rpt crds) (map vesOf (mEls m)) = Ok vs /\
    getDiameters ty (map rpt crds) elVe = Ok ds /\ getDiameters ty (map rpt crds) elVe' = Ok ds /\ getDiameters ty (map rpt crds) (map vesOf (mEls m)) = Ok ds /\
    forall faVe', Forall2 (@Permutation nat) (mFaVe m) faVe' -> getAreas ty (map rpt crds) (mFaVe m) = Ok ar /\ getAreas ty (map rpt crds) faVe' = Ok ar.
Proof.
  intros SRT TOL W G Wp Rg Pm. destruct (mesh_any srt SRT tol TOL ty crds elVe elFaVe groups per W G Wp) as (m & E & F & El & Ow). exists m.
  assert (KV : forall l, Forall2 (@Permutation nat) l (map vesOf (mEls m)) ->
     getVolumes ty (map rpt crds) l = Ok (map (fun e => volR ty (ptsOf crds (vesOf e))) (mEls m)) /\ getDiameters ty (map rpt crds) l = Ok (map (fun e => diaR ty (ptsOf crds (vesOf e))) (mEls m))).
  { assert (X : forall e, In e (mEls m) -> elemR ty (ptsOf crds (vesOf e)) /\ forall v, In v (vesOf e) -> (v < length crds)%nat).
    { intros e He. apply In_nth_error in He as (el & He). destruct (el_ok tol TOL ty crds elVe elFaVe W Rg m El el e He) as (vl & Ev & P & ER & ND & LV & LF & B & FF). auto. }
    revert X. unfold getVolumesEl, setInDiameter. generalize (mEls m). intros es X l HF. revert l HF. induction es as [|e es IH]; intros l HF; inversion HF as [|a a' l' l'' Pa Pl]; subst; [split; reflexivity|].
    destruct (X e (or_introl eq_refl)) as (ER & B). destruct (IH ltac:(intros; apply X; right; auto) l' Pl) as (I1 & I2).
    assert (GE : getEnVeCrds a (map rpt crds) = Ok (ptsOf crds a)) by (apply getEnVeCrds_ok; intros v Hv; apply B; apply (Permutation_in _ Pa); exact Hv).
    assert (PP : Permutation (ptsOf crds (vesOf e)) (ptsOf crds a)) by (apply Permutation_map, Permutation_sym; exact Pa).
    cbn [mapM map]. rewrite GE. cbn [bind]. rewrite (volume_ok ty _ _ ER PP), (inDia_ok ty _ _ ER PP). cbn [bind]. rewrite I1, I2. split; reflexivity. }
  assert (P0 : Forall2 (@Permutation nat) elVe (map vesOf (mEls m))).
  { assert (LE : length (mEls m) = length elVe) by apply El. assert (XX : forall el vl, nth_error elVe el = Some vl -> exists e, nth_error (mEls m) el = Some e /\ Permutation vl (vesOf e)).
    { intros el vl Hv. destruct El as [_ El]. destruct (El el vl Hv) as (e & He & P & _). eauto. }
    clear - LE XX. revert LE XX. generalize (mEls m). induction elVe as [|a l IH]; intros [|e es] LE XX; try discriminate; cbn; constructor.
    - destruct (XX 0%nat a eq_refl) as (e' & H & P). cbn in H. inversion H; subst. exact P.
    - apply IH; [cbn in LE; lia|]. intros el vl Hv. apply (XX (S el) vl Hv). }
  assert (P1 : Forall2 (@Permutation nat) elVe' (map vesOf (mEls m))).
  { clear - P0 Pm. revert P0. generalize (map vesOf (mEls m)). induction Pm as [|a b la lb Pab _ IH]; intros r P0; inversion P0; subst; constructor; auto. eapply perm_trans; [apply Permutation_sym; exact Pab|assumption]. }
  assert (P2 : Forall2 (@Permutation nat) (map vesOf (mEls m)) (map vesOf (mEls m))) by (clear; induction (map vesOf (mEls m)); [constructor|constructor; [apply Permutation_refl|assumption]]).
  destruct (areas_ok tol TOL ty crds elVe elFaVe W Rg m El Ow) as (ar & A1 & _).
  eexists. eexists. exists ar. split; [exact E|]. split; [apply (KV elVe P0)|]. split; [apply (KV elVe' P1)|]. split; [apply (KV _ P2)|]. split; [apply (KV elVe P0)|]. split; [apply (KV elVe' P1)|]. split; [apply (KV _ P2)|].
  intros faVe' PF. split; [exact A1|]. rewrite <- A1. unfold getAreasFa.
  assert (KA : forall f k k', nth_error (mFaVe m) f = Some k -> Permutation k k' -> (v <- getEnVeCrds k' (map rpt crds);; volume (faOf ty) v) = (v <- getEnVeCrds k (map rpt crds);; volume (faOf ty) v)).
  { intros f k k' Hk Pk. destruct (Ow f) as (el & i & o & H1 & _); [apply nth_error_Some; congruence|]. unfold elFace in H1. destruct (nth_error (mEls m) el) as [e|] eqn:He; [|discriminate].
    destruct (el_ok tol TOL ty crds elVe elFaVe W Rg m El el e He) as (vl & Ev & P & ER & ND & LV & LF & B & FF).
    destruct (row_eq tol TOL ty crds elVe elFaVe W Rg m El el e i f k He H1 Hk) as (Hlt & PFk & _ & SV). assert (Bk : forall v, In v k -> (v < length crds)%nat) by auto.
    rewrite getEnVeCrds_ok by (intros v Hv; apply Bk; apply (Permutation_in _ (Permutation_sym Pk)); exact Hv). rewrite getEnVeCrds_ok by exact Bk. cbn [bind].
    rewrite (face_area ty _ i (ptsOf crds k) ER Hlt PFk). apply face_area; auto. eapply perm_trans; [exact PFk|]. apply Permutation_map. exact Pk. }
  clear - KA PF. revert KA. induction PF as [|k k' l l' Pk _ IH]; intros KA; [reflexivity|]. cbn [mapM]. rewrite (KA 0%nat k k' eq_refl Pk). rewrite IH; [reflexivity|].
  intros f a a' Ha Pa. apply (KA (S f) a a' Ha Pa).
Qed.

(** C65: the stored diameter of an element is that of the largest ball within the element: a point has at least half the diameter as distance to
    all faces, and no point has a larger distance to all of them. *)
Theorem C65_inscribed ty crds elVe elFaVe groups per : isSort srt -> (0 < tol)%Q ->
  wfMesh tol ty crds elVe elFaVe -> wfGroups elFaVe groups -> wfPer tol ty crds elFaVe groups per -> (forall el, In el elVe -> regular ty crds el) ->
  exists m ds, mkMeshOf srt tol ty crds elVe elFaVe groups per = Ok m /\ getDiameters ty (map rpt crds) elVe = Ok ds /\ length ds = length elVe /\
    forall el e, nth_error (mEls m) el = Some e ->
      let dist c f (d : R) := exists k n, nth_error (mFaVe m) f = Some k /\ outward ty (ptsOf crds (vesOf e)) (ptsOf crds k) n /\ forall w, In w (ptsOf crds k) -> inner n (minus w c) = d in
      0 < nth el ds 0 /\
      (exists c, forall f, In f (fasOf e) -> exists d, dist c f d /\ nth el ds 0 / 2 <= d) /\
      (forall c, exists f d, In f (fasOf e) /\ dist c f d /\ d <= nth el ds 0 / 2).
Proof.
  intros SRT TOL W G Wp Rg. destruct (mesh_any srt SRT tol TOL ty crds elVe elFaVe groups per W G Wp) as (m & E & F & El & Ow).
  destruct (diameters_ok tol TOL ty crds elVe elFaVe W Rg m El) as (ds & D1 & D2 & D3). exists m, ds. split; [exact E|]. split; [exact D1|]. split; [exact D2|].
  intros el e He dist. rewrite (D3 el e He). destruct (el_ok tol TOL ty crds elVe elFaVe W Rg m El el e He) as (vl & Ev & P & ER & ND & LV & LF & B & FF). set (p := ptsOf crds (vesOf e)) in *.
  assert (DI : forall c i f, nth_error (fasOf e) i = Some f -> dist c f (- inner (unitV ty p i) (minus c (fv ty p i 0)))).
  { intros c i f Hf. destruct (FF i f Hf) as (Hlt & Hk). destruct (row_eq tol TOL ty crds elVe elFaVe W Rg m El el e i f _ He Hf Hk) as (_ & PF & _). eexists. exists (unitV ty p i). split; [exact Hk|].
    assert (OU := unitV_outward ty p i ER Hlt). split; [eapply outward_perm; [apply Permutation_refl|exact PF|exact OU]|]. intros w Hw. apply (Permutation_in _ (Permutation_sym PF)) in Hw.
    destruct OU as (_ & _ & O3 & _). assert (X := O3 w (fv ty p i 0) Hw ltac:(apply fv_in; rewrite (row_len ty i Hlt); destruct ty; cbn; lia)).
    rewrite (inner_diff _ w c (fv ty p i 0)), X. ring. }
  split; [|split].
  - assert (VP := volR_pos ty p ER). assert (LP := lens_pos ty p ER). destruct ty; cbn [diaR].
    + destruct ER as (x0 & x1 & y0 & y1 & -> & H1 & H2). unfold diaR. cbn. apply Rmin_pos; lra.
    + unfold diaR. apply Rdiv_lt_0_compat; lra.
    + destruct ER as (x0 & x1 & y0 & y1 & z0 & z1 & -> & H1 & H2 & H3). unfold diaR. cbn. repeat apply Rmin_pos; lra.
    + unfold diaR. apply Rdiv_lt_0_compat; lra.
  - destruct (inscribed ty p ER) as (c & Hc). exists c. intros f Hf. apply In_nth_error in Hf as (i & Hf). eexists. split; [exact (DI c i f Hf)|]. destruct (FF i f Hf) as (Hlt & _). specialize (Hc i Hlt). lra.
  - intros c. destruct (largest ty p c ER) as (i & Hlt & H). destruct (nth_error (fasOf e) i) as [f|] eqn:Hf; [|apply nth_error_None in Hf; lia]. exists f. eexists. split; [eapply nth_error_In; eauto|]. split; [exact (DI c i f Hf)|]. lra.
Qed.
End Props.

Print Assumptions C62_frames.
Print Assumptions C62_sides.
Print Assumptions C63_volumes.
Print Assumptions C64_order.
Print Assumptions C65_inscribed.

(** ** Examples: the hypotheses hold for two triangles, for two periodic rectangles, and for a tetrahedron and a box *)
Example C62_example : (forall el, In el exElVe -> regular TRIA3 exCrds el) /\ wfMesh exTol TRIA3 exCrds exElVe exElFaVe /\ wfGroups exElFaVe exGroups /\ wfPer exTol TRIA3 exCrds exElFaVe exGroups None /\ (0 < exTol)%Q.
Proof.
  split; [|split; [apply C32_example_wf|split; [apply C32_example_wf|split; [exact I|reflexivity]]]].
  intros el Hel v Hv. cbn [exElVe In] in Hel. decompose [or] Hel; try contradiction; subst; cbn [In] in Hv; decompose [or] Hv; try contradiction; subst; vm_compute; reflexivity.
Qed.

Example C65_example_periodic : (forall el, In el perElVe -> regular QUAD4R perCrds el) /\ wfMesh perTol QUAD4R perCrds perElVe perElFaVe /\ wfGroups perElFaVe perGroups /\ wfPer perTol QUAD4R perCrds perElFaVe perGroups (Some 6%N) /\ (0 < perTol)%Q.
Proof.
  split; [|split; [apply C51_example_wf|split; [apply C51_example_wf|split; [apply C51_example_wf|reflexivity]]]].
  intros el Hel. cbn [perElVe In] in Hel. destruct Hel as [<-|[<-|[]]]; (split; [|split]).
  all: try (intros v Hv; cbn [In] in Hv; decompose [or] Hv; try contradiction; subst; vm_compute; reflexivity).
  1,2: exists 0%Q, 1%Q; intros v Hv; cbn [In] in Hv; decompose [or] Hv; try contradiction; subst; vm_compute; auto.
  1: exists 1%Q, 2%Q. 2: exists 0%Q, 1%Q.
  all: intros v Hv; cbn [In] in Hv; decompose [or] Hv; try contradiction; subst; vm_compute; auto.
Qed.

Example C65_example_tet : regular TET4 [(0, 0, 0); (1, 0, 0); (0, 1, 0); (0, 0, 1)]%Q [0; 1; 2; 3]%nat /\ placed (1 # 1000) [(0, 0, 0); (1, 0, 0); (0, 1, 0); (0, 0, 1)]%Q TET4 [0; 1; 2; 3]%nat.
Proof. split; [exact I|]. exists 0%nat, 1%nat, 2%nat, 3%nat. split; [reflexivity|vm_compute; reflexivity]. Qed.

Definition boxCrds : list pt := [(0, 0, 0); (2, 0, 0); (2, 3, 0); (0, 3, 0); (0, 0, 4); (2, 0, 4); (2, 3, 4); (0, 3, 4)]%Q.
Example C65_example_box : regular HEX8R boxCrds (seq 0 8) /\ placed (1 # 1000) boxCrds HEX8R (seq 0 8).
Proof.
  split.
  - split; [exists 0%Q, 2%Q|split; [exists 0%Q, 3%Q|exists 0%Q, 4%Q]]; intros v Hv; cbn [In seq] in Hv; decompose [or] Hv; try contradiction; subst; vm_compute; auto.
  - split; [reflexivity|]. intros k l Hk Hl. do 8 (destruct k as [|k]; [do 8 (destruct l as [|l]; [cbn; repeat split; intros; try (exfalso; cbv in *; lia); vm_compute; reflexivity|]); exfalso; lia|]). exfalso; lia.
Qed.

(** the model on the example: area of the first face, and normal of the diagonal *)
Example C63_example_run : getAreas TRIA3 (map rpt exCrds) [[0; 1]]%nat = Ok [1].
Proof.
  unfold getAreasFa. cbn [mapM]. rewrite getEnVeCrds_ok by (cbn; intros; lia). cbn [bind GeomV.volume faOf]. unfold GeomV.lineLength, GeomV.ve. cbn [map ptsOf nth]. unfold ptOf, rpt, xyz. cbn [nth exCrds crd fst snd vX vY vZ].
  rewrite (Q2R_eq0 0) by reflexivity. replace (Q2R 1) with 1 by (unfold Q2R; cbn; lra). replace (0 + (1 - 0) * (1 - 0) + (0 - 0) * (0 - 0) + (0 - 0) * (0 - 0)) with 1 by ring. rewrite sqrt_1. reflexivity.
Qed.
