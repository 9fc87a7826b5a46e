(** C71 - C73: internal boundaries, friction and slip weakening of the seismic solver, stated with the notions of ElSpec and FaultSpec. The theorems over the
    real numbers use the axioms of the standard library's real numbers. *)
From Coq Require Import List Arith Bool Lia Reals Lra Field.
From Verif Require Import Util MatMul ElGen Elastic ElSpec ElWave ElFlux ElTrafo ElMid ElMid2 ElFace Fault FaultSpec FaultMs FaultRot FaultFric FaultNet FaultSlip FaultHist.
From Verif Require Import Props_FwaveR Props_Elastic.
Import ListNotations.
Open Scope R_scope.

(** the model over the real numbers *)
Definition ibInit3R (tol : R) maxEl spType bnd nSfs nScs (bg : list (material * R)) fas o :=
  ibInit3 0 1 Rplus Rminus Rmult Rdiv Ropp sqrt rltb tol maxEl spType bnd nSfs nScs (map (fun x => (toMat (fst x), snd x)) bg) fas o.
Definition ibInit2R (tol : R) maxEl spType bnd nSfs nScs (bg : list (material * R)) fas o :=
  ibInit2 0 1 Rplus Rminus Rmult Rdiv Ropp sqrt rltb tol maxEl spType bnd nSfs nScs (map (fun x => (toMat (fst x), snd x)) bg) fas o.
Definition lswSfInitR (maxT : R) := lswSfInit 0 maxT.
Definition lswGlInitR (tol : R) := lswGlInit 1 Rdiv rltb tol.

(** ** C71: coordinate systems and solvers of internal boundaries *)

(** the rotation of a boundary's coordinate system onto a face *)
Theorem C71_rotation tol v w : 0 <= tol -> 0 < norm 3 (co3 v) -> 0 < norm 3 (co3 w) ->
  (forall r, rotMatR tol v w = Ok r -> turns r (co3 v) (co3 w)) /\
  (tol * (norm 3 (co3 v) * norm 3 (co3 w)) < dot 3 (co3 v) (co3 w) + norm 3 (co3 v) * norm 3 (co3 w) -> exists r, rotMatR tol v w = Ok r).
Proof.
  intros T A B. split; [intros r; now apply rotMat_turns|]. intros H. rewrite rotMat_rodr. cbv zeta. destruct (normalize_unit v A) as (U0 & N0). destruct (normalize_unit w B) as (U1 & N1).
  set (u0 := normalizeR v) in *. set (u1 := normalizeR w) in *.
  assert (E : dot 3 (co3 v) (co3 w) = norm 3 (co3 v) * norm 3 (co3 w) * dot 3 (co3 u0) (co3 u1)).
  { rewrite (dot_ext 3 (co3 v) (co3 w) (fun i => norm 3 (co3 v) * co3 u0 i) (fun i => norm 3 (co3 w) * co3 u1 i)) by (auto; intros; symmetry; auto). cbv [dot sum seq fold_left]. ring. }
  rewrite E in H. assert (P : 0 < norm 3 (co3 v) * norm 3 (co3 w)) by (now apply Rmult_lt_0_compat).
  assert (K : tol < dot 3 (co3 u0) (co3 u1) + 1). { apply Rmult_lt_reg_l with (1 := P). lra. }
  assert (X : rltb tol (Rabs (dot 3 (co3 u0) (co3 u1) + 1)) = true) by (apply rltb_lt; rewrite Rabs_right; lra). rewrite X. destruct (cross3 Rminus Rmult u0 u1) as [[cx cy] cz]. eauto.
Qed.
Print Assumptions C71_rotation.
Example C71_rotation_ex : 0 < norm 3 (co3 (3, 0, 4)) /\ 0 < norm 3 (co3 (0, 2, 0)) /\ (1 / 100) * (norm 3 (co3 (3, 0, 4)) * norm 3 (co3 (0, 2, 0))) < dot 3 (co3 (3, 0, 4)) (co3 (0, 2, 0)) + norm 3 (co3 (3, 0, 4)) * norm 3 (co3 (0, 2, 0)).
Proof.
  assert (E1 : norm 3 (co3 (3, 0, 4)) = 5). { unfold norm. replace (dot 3 _ _) with (5 * 5) by (cbv [dot sum seq fold_left co3 fst snd]; ring). apply sqrt_square. lra. }
  assert (E2 : norm 3 (co3 (0, 2, 0)) = 2). { unfold norm. replace (dot 3 _ _) with (2 * 2) by (cbv [dot sum seq fold_left co3 fst snd]; ring). apply sqrt_square. lra. }
  rewrite E1, E2. cbv [dot sum seq fold_left co3 fst snd]. lra.
Qed.

(** side of a boundary: the plus side is the left element if the normal points in the boundary's direction *)
Definition plusLeft (pref : bool) (b n : nat -> R) (d : nat) : Prop := pref = true <-> 0 < dot d b n.

(** the coordinate system of a face is the rotated coordinate system of the boundary, at any face that is not parallel to the boundary's direction *)
Theorem C71_frame tol b0 b1 b2 n s t : 0 < tol -> orthonormal b0 b1 b2 -> dot 3 (co3 n) (co3 n) = 1 -> tol < Rabs (dot 3 (co3 b0) (co3 n)) ->
  exists pref rm n' s' t', ibCrds3R tol (Some (b0, b1, b2)) n s t = Ok (pref, (n', s', t')) /\ plusLeft pref (co3 b0) (co3 n) 3 /\
    (forall i, (i < 3)%nat -> co3 n' i = if pref then co3 n i else - co3 n i) /\ 0 < dot 3 (co3 b0) (co3 n') /\
    orthonormal n' s' t' /\ turns rm (co3 b0) (co3 n') /\ (forall i, (i < 3)%nat -> co3 s' i = applyM rm (co3 b1) i /\ co3 t' i = applyM rm (co3 b2) i).
Proof.
  intros T O U P. destruct (crds3_ok tol b0 b1 b2 n s t T O U P) as (rm & s' & t' & E & O' & Tu & V). set (pref := rltb 0 (dot 3 (co3 b0) (co3 n))) in *.
  assert (F : forall i, (i < 3)%nat -> co3 (flip pref n) i = if pref then co3 n i else - co3 n i). { intros i Hi. unfold flip. destruct pref; [reflexivity|]. destruct n as [[a b] c]. destruct i as [|[|[|]]]; try lia; reflexivity. }
  exists pref, rm, (flip pref n), s', t'. split; [exact E|]. split; [split; apply rltb_lt|]. split; [exact F|]. split; [|auto].
  rewrite (dot_ext 3 _ (co3 (flip pref n)) (co3 b0) (fun i => (if pref then 1 else - (1)) * co3 n i)) by (auto; intros i Hi; rewrite (F i Hi); destruct pref; ring).
  replace (dot 3 (co3 b0) (fun i => (if pref then 1 else - (1)) * co3 n i)) with ((if pref then 1 else - (1)) * dot 3 (co3 b0) (co3 n)) by (cbv [dot sum seq fold_left]; ring).
  unfold pref, rltb. destruct (Rlt_dec 0 (dot 3 (co3 b0) (co3 n))) as [X|X]; [lra|]. rewrite Rabs_left1 in P by lra. lra.
Qed.
Print Assumptions C71_frame.
Example C71_frame_ex : orthonormal exN exS exT /\ dot 3 (co3 (- (1), 0, 0)) (co3 (- (1), 0, 0)) = 1 /\ 1 / 100 < Rabs (dot 3 (co3 exN) (co3 (- (1), 0, 0))).
Proof. split; [apply C67_ex|]. split; cbv [dot sum seq fold_left co3 fst snd exN]; [ring|]. rewrite Rabs_left; lra. Qed.

(** welded internal boundaries: the net updates are the fluxes of the exact solution of the Riemann problem, scaled by the time step, the size of a sub-face and
    the volume of a sub-cell. [bnd]: coordinate system of the boundary, if given *)
Theorem C71_interface3 tol bnd l r n s t area vL vR nSfs nScs : 0 < tol -> orthonormal n s t -> solid l -> solid r ->
  match bnd with None => True | Some (b0, b1, b2) => orthonormal b0 b1 b2 /\ tol < Rabs (dot 3 (co3 b0) (co3 n)) end ->
  exists so, ibFace3R tol bnd l r n s t area vL vR nSfs nScs = Ok so /\
  forall dt qL qR sL sR, length qL = 9%nat -> length qR = 9%nat -> riemann 3 l r (co3 n) qL qR sL sR ->
    fst (netR 9 so (@dummySolv R) dt qL qR) =
    (vscale (- (dt * ((area / nSfs) / (vL / nScs)))) (flux 3 l (co3 n) sL), vscale (dt * ((area / nSfs) / (vR / nScs))) (flux 3 r (co3 n) sR)).
Proof.
  intros T O L R B. assert (C : exists pref s' t', ibCrds3R tol bnd n s t = Ok (pref, (flip pref n, s', t')) /\ orthonormal (flip pref n) s' t').
  { destruct bnd as [[[b0 b1] b2]|]; [|exists true, s, t; split; [reflexivity|assumption]]. destruct B as (BO & BT).
    destruct (crds3_ok tol b0 b1 b2 n s t T BO (ortho_unit3 _ _ _ O) BT) as (rm & s' & t' & E & O' & _). eauto. }
  destruct C as (pref & s' & t' & E & O'). eexists. split; [apply (ibFace3_ok _ _ _ _ _ _ _ _ _ _ _ _ _ _ _ _ E)|]. intros dt qL qR sL sR LL LR Rm.
  rewrite (interface3 pref l r n s' t' _ _ dt qL qR sL sR O' L R LL LR Rm). cbn [fst]. unfold scOf. rewrite Ropp_mult_distr_l. reflexivity.
Qed.
Theorem C71_interface2 tol bnd l r nx ny area vL vR nSfs nScs : 0 < tol -> unit2 nx ny -> solid l -> solid r ->
  match bnd with None => True | Some b => tol < Rabs (dot 2 (co2 (fst b) (snd b)) (co2 nx ny)) end ->
  exists so, ibFace2R tol bnd l r (nx, ny) area vL vR nSfs nScs = Ok so /\
  forall dt qL qR sL sR, length qL = 5%nat -> length qR = 5%nat -> riemann 2 l r (co2 nx ny) qL qR sL sR ->
    fst (netR 5 so (@dummySolv R) dt qL qR) =
    (vscale (- (dt * ((area / nSfs) / (vL / nScs)))) (flux 2 l (co2 nx ny) sL), vscale (dt * ((area / nSfs) / (vR / nScs))) (flux 2 r (co2 nx ny) sR)).
Proof.
  intros T O L R B. assert (C : exists pref, prefDirR tol (option_map (fun b => sprod2 Rplus Rmult b (nx, ny)) bnd) = Ok pref).
  { destruct bnd as [b|]; [|exists true; reflexivity]. unfold prefDirR, prefDir. cbn [option_map]. rewrite fabsR.
    assert (X : sprod2 Rplus Rmult b (nx, ny) = dot 2 (co2 (fst b) (snd b)) (co2 nx ny)) by (cbv [dot sum seq fold_left co2 sprod2 fst snd]; destruct b; ring). rewrite X. apply rltb_lt in B. rewrite B. cbn [check bind]. eauto. }
  destruct C as (pref & E). eexists. split; [apply (ibFace2_ok _ _ _ _ _ _ _ _ _ _ _ E)|]. intros dt qL qR sL sR LL LR Rm. cbn [fst snd].
  rewrite (interface2 pref l r nx ny _ _ dt qL qR sL sR O L R LL LR Rm). cbn [fst]. unfold scOf. rewrite Ropp_mult_distr_l. reflexivity.
Qed.
Print Assumptions C71_interface3.
Print Assumptions C71_interface2.
Example C71_interface_ex : orthonormal exN exS exT /\ unit2 (3 / 5) (4 / 5) /\ (orthonormal (1, 0, 0) (0, 1, 0) (0, 0, 1) /\ 1 / 100 < Rabs (dot 3 (co3 (1, 0, 0)) (co3 exN))) /\
  1 / 100 < Rabs (dot 2 (co2 (- (1)) 0) (co2 (3 / 5) (4 / 5))) /\ exists sL sR, riemann 3 exL exR (co3 exN) exQL exQR sL sR.
Proof.
  destruct C67_ex as (O & U). split; [exact O|]. split; [exact U|]. split; [|split].
  - split; [cbv [orthonormal fst snd]; lra|]. cbv [dot sum seq fold_left co3 fst snd exN]. rewrite Rabs_right; lra.
  - cbv [dot sum seq fold_left co2]. rewrite Rabs_left; lra.
  - apply C68_ex.
Qed.

(** every face of the boundary gets its solver: the k-th one in the order of the faces. Missing elements are replaced by the other element. [rep]: element of a side *)
Definition rep (maxEl e other : nat) : nat := if (e =? maxEl)%nat then other else e.
Definition solverOf3 (tol : R) maxEl bnd nSfs nScs (bg : list (material * R)) (f : @ibFa R) (so : @ibSolv R) : Prop :=
  fst (faEl f) <> snd (faEl f) /\ exists l vL r vR, nth_error bg (rep maxEl (fst (faEl f)) (snd (faEl f))) = Some (l, vL) /\ nth_error bg (rep maxEl (snd (faEl f)) (fst (faEl f))) = Some (r, vR) /\
    ibFace3R tol bnd l r (faN f) (faS f) (faT f) (faArea f) vL vR nSfs nScs = Ok so.
Definition solverOf2 (tol : R) maxEl bnd nSfs nScs (bg : list (material * R)) (f : @ibFa R) (so : @ibSolv R) : Prop :=
  fst (faEl f) <> snd (faEl f) /\ exists l vL r vR, nth_error bg (rep maxEl (fst (faEl f)) (snd (faEl f))) = Some (l, vL) /\ nth_error bg (rep maxEl (snd (faEl f)) (fst (faEl f))) = Some (r, vR) /\
    ibFace2R tol bnd l r (fst (faN f)) (faArea f) vL vR nSfs nScs = Ok so.

Lemma ibEls_ok maxEl (f : @ibFa R) e : ibEls maxEl f = Ok e <-> fst (faEl f) <> snd (faEl f) /\ e = (rep maxEl (fst (faEl f)) (snd (faEl f)), rep maxEl (snd (faEl f)) (fst (faEl f))).
Proof.
  unfold ibEls, rep. destruct (faEl f) as [l r]. cbn [fst snd]. unfold check. destruct (l =? r)%nat eqn:E; cbn [negb bind].
  - apply Nat.eqb_eq in E. split; [discriminate|]. intros (X & _). contradiction.
  - apply Nat.eqb_neq in E. destruct (l =? maxEl)%nat eqn:A, (r =? maxEl)%nat eqn:B; try (apply Nat.eqb_eq in A; apply Nat.eqb_eq in B; congruence).
    all: split; [intros H; injection H as <-; auto|intros (_ & ->); reflexivity].
Qed.
Lemma rd_bg (bg : list (material * R)) i x : rd (map (fun x => (toMat (fst x), snd x)) bg) i = Ok x <-> exists m v, nth_error bg i = Some (m, v) /\ x = (toMat m, v).
Proof.
  unfold rd. rewrite nth_error_map. destruct (nth_error bg i) as [[m v]|]; cbn [option_map fst snd].
  - split; [intros H; injection H as <-; eauto|intros (m' & v' & H & ->); injection H as <- <-; reflexivity].
  - split; [discriminate|intros (m' & v' & H & _); discriminate].
Qed.

(** The faces of the sparse type, [sel] below, are those which have all its bits, whatever other bits they have. *)
Theorem C71_selection spType (fas : list (@ibFa R)) f : In f (filter (hasSp spType) fas) <-> In f fas /\ forall b, Nat.testbit spType b = true -> Nat.testbit (faSp f) b = true.
Proof.
  rewrite filter_In. apply and_iff_compat_l. unfold hasSp. rewrite Nat.eqb_eq. split.
  - intros E b H. rewrite <- E, Nat.land_spec in H. apply andb_true_iff in H. apply H.
  - intros H. apply Nat.bits_inj. intros b. rewrite Nat.land_spec. destruct (Nat.testbit spType b) eqn:E; [rewrite (H b E); reflexivity|apply andb_false_r].
Qed.
Print Assumptions C71_selection.
Theorem C71_init3 tol maxEl spType bnd nSfs nScs bg fas o :
  let sel := filter (hasSp spType) fas in
  (forall o', ibInit3R tol maxEl spType bnd nSfs nScs bg fas o = Ok o' ->
     length o' = length o /\ (forall k f, nth_error sel k = Some f -> exists so, nth_error o' k = Some so /\ solverOf3 tol maxEl bnd nSfs nScs bg f so) /\
     (forall k, (length sel <= k)%nat -> nth_error o' k = nth_error o k)) /\
  (0 < tol -> match bnd with None => True | Some (b0, b1, b2) => orthonormal b0 b1 b2 end -> (length sel <= length o)%nat ->
   (forall f, In f sel -> exists so, solverOf3 tol maxEl bnd nSfs nScs bg f so) -> exists o', ibInit3R tol maxEl spType bnd nSfs nScs bg fas o = Ok o').
Proof.
  cbv zeta. split.
  - intros o'. unfold ibInit3R, ibInit3. destruct (ibCheck3 _ _ _ _ _ _ _ _ _); cbn [bind]; [|discriminate]. intros H. apply spLoop_inv in H. destruct H as (H1 & H2 & H3). split; [exact H1|]. split; [|exact H3].
    intros k f Hf. destruct (H2 k f Hf) as (so & B & No). exists so. split; [exact No|]. destruct (ibEls maxEl f) as [e|] eqn:Ee; cbn [bind] in B; [|discriminate]. apply ibEls_ok in Ee. destruct Ee as (D & ->). cbn [fst snd] in B.
    destruct (rd _ (rep maxEl (fst (faEl f)) (snd (faEl f)))) as [l|] eqn:El in B; cbn [bind] in B; [|discriminate]. destruct (rd _ (rep maxEl (snd (faEl f)) (fst (faEl f)))) as [r|] eqn:Er in B; cbn [bind] in B; [|discriminate].
    apply rd_bg in El. apply rd_bg in Er. destruct El as (l' & vL & El & ->), Er as (r' & vR & Er & ->). split; [exact D|]. exists l', vL, r', vR. auto.
  - intros T B L A. unfold ibInit3R, ibInit3.
    match goal with |- context [bind (ibCheck3 ?a ?b ?c ?d ?e ?f ?g ?h ?i ?j) _] => assert (C : ibCheck3 a b c d e f g h i j = Ok tt) end.
    { unfold ibCheck3. destruct bnd as [[[b0 b1] b2]|]; [|reflexivity]. apply ortho_dots in B. destruct B as (B0 & B1 & B2 & _).
      rewrite (sqrt_dot b0 : norm3 Rplus Rmult sqrt b0 = _), (sqrt_dot b1 : norm3 Rplus Rmult sqrt b1 = _), (sqrt_dot b2 : norm3 Rplus Rmult sqrt b2 = _), !fabsR. unfold norm. rewrite B0, B1, B2, sqrt_1. replace (1 - 1) with 0 by ring. rewrite Rabs_R0. apply rltb_lt in T. rewrite T. reflexivity. }
    rewrite C. cbn [bind]. apply spLoop_total; [exact L|]. intros k f Hf. destruct (A f (nth_error_In _ _ Hf)) as (so & D & l & vL & r & vR & El & Er & Ef). exists so.
    assert (Ee : ibEls maxEl f = Ok (rep maxEl (fst (faEl f)) (snd (faEl f)), rep maxEl (snd (faEl f)) (fst (faEl f)))) by (now apply ibEls_ok). rewrite Ee. cbn [bind fst snd].
    rewrite (proj2 (rd_bg bg _ (toMat l, vL))) by eauto. rewrite (proj2 (rd_bg bg _ (toMat r, vR))) by eauto. cbn [bind fst snd]. exact Ef.
Qed.
Theorem C71_init2 tol maxEl spType bnd nSfs nScs bg fas o :
  let sel := filter (hasSp spType) fas in
  (forall o', ibInit2R tol maxEl spType bnd nSfs nScs bg fas o = Ok o' ->
     length o' = length o /\ (forall k f, nth_error sel k = Some f -> exists so, nth_error o' k = Some so /\ solverOf2 tol maxEl bnd nSfs nScs bg f so) /\
     (forall k, (length sel <= k)%nat -> nth_error o' k = nth_error o k)) /\
  ((length sel <= length o)%nat -> (forall f, In f sel -> exists so, solverOf2 tol maxEl bnd nSfs nScs bg f so) -> exists o', ibInit2R tol maxEl spType bnd nSfs nScs bg fas o = Ok o').
Proof.
  cbv zeta. split.
  - intros o'. unfold ibInit2R, ibInit2. intros H. apply spLoop_inv in H. destruct H as (H1 & H2 & H3). split; [exact H1|]. split; [|exact H3].
    intros k f Hf. destruct (H2 k f Hf) as (so & B & No). exists so. split; [exact No|]. destruct (ibEls maxEl f) as [e|] eqn:Ee; cbn [bind] in B; [|discriminate]. apply ibEls_ok in Ee. destruct Ee as (D & ->). cbn [fst snd] in B.
    destruct (rd _ (rep maxEl (fst (faEl f)) (snd (faEl f)))) as [l|] eqn:El in B; cbn [bind] in B; [|discriminate]. destruct (rd _ (rep maxEl (snd (faEl f)) (fst (faEl f)))) as [r|] eqn:Er in B; cbn [bind] in B; [|discriminate].
    apply rd_bg in El. apply rd_bg in Er. destruct El as (l' & vL & El & ->), Er as (r' & vR & Er & ->). split; [exact D|]. exists l', vL, r', vR. auto.
  - intros L A. unfold ibInit2R, ibInit2. apply spLoop_total; [exact L|]. intros k f Hf. destruct (A f (nth_error_In _ _ Hf)) as (so & D & l & vL & r & vR & El & Er & Ef). exists so.
    assert (Ee : ibEls maxEl f = Ok (rep maxEl (fst (faEl f)) (snd (faEl f)), rep maxEl (snd (faEl f)) (fst (faEl f)))) by (now apply ibEls_ok). rewrite Ee. cbn [bind fst snd].
    rewrite (proj2 (rd_bg bg _ (toMat l, vL))) by eauto. rewrite (proj2 (rd_bg bg _ (toMat r, vR))) by eauto. cbn [bind fst snd]. exact Ef.
Qed.
Print Assumptions C71_init3.
Print Assumptions C71_init2.
(** three faces, the first is not part of the boundary; the right element of the last is missing *)
Definition exFas : list (@ibFa R) :=
  [{| faSp := 1; faEl := (0, 1)%nat; faN := exN; faS := exS; faT := exT; faArea := 1 |}; {| faSp := 3; faEl := (0, 1)%nat; faN := exN; faS := exS; faT := exT; faArea := 2 |};
   {| faSp := 6; faEl := (1, 7)%nat; faN := (0, 0, 1); faS := (1, 0, 0); faT := (0, 1, 0); faArea := 3 |}].
Example C71_init_ex : exists o', ibInit3R (1 / 100) 7 2 (Some (exN, exS, exT)) 3 9 [(exL, 1); (exR, 2)] (firstn 2 exFas) [{| ibTm1 := []; ibJump := []; ibFluxL := []; ibFluxR := [] |}] = Ok o'.
Proof.
  apply C71_init3; [lra|apply C67_ex|cbn; lia|]. intros f [<-|[]]. destruct (C71_interface3 (1 / 100) (Some (exN, exS, exT)) exL exR exN exS exT 2 1 2 3 9) as (so & E & _).
  - lra.
  - apply C67_ex.
  - apply C68_ex.
  - apply C68_ex.
  - split; [apply C67_ex|]. cbv [dot sum seq fold_left co3 fst snd exN]. rewrite Rabs_right; lra.
  - exists so. split; [cbn; lia|]. exists exL, 1, exR, 2. repeat split; assumption.
Qed.
Example C71_init_ex2 : filter (hasSp 2) exFas = skipn 1 exFas.
Proof. reflexivity. Qed.

(** ** C72: friction *)

(** Coulomb friction between two solids determines the states on both sides of a fault *)
Theorem C72_wellposed d p m n bg st qP qM : dim d -> dot d n n = 1 -> solid p -> solid m -> length qP = nQt d -> length qM = nQt d -> dot d bg n = 0 -> (forall tn, 0 <= st tn) ->
  exists sP sM, faultStates d p m n bg st qP qM sP sM /\ forall sP' sM', faultStates d p m n bg st qP qM sP' sM' -> sP' = sP /\ sM' = sM.
Proof.
  intros D U SP SM LP LM BG ST. destruct (fault_exists d p m n bg st qP qM) as (sP & sM & H); auto. exists sP, sM. split; [exact H|]. intros sP' sM' H'.
  exact (fault_unique d p m n bg st qP qM D U SP SM LP LM (ST _) sP' sM' sP sM H' H).
Qed.
(** friction takes energy: the shear traction, with the background stress, does no positive work on the slip; a fault whose welded solution does not exceed the strength
    is a welded interface *)
Theorem C72_dissipates d p m n bg st qP qM sP sM : faultStates d p m n bg st qP qM sP sM ->
  let tau i := tangential d n (traction d sP n) i + bg i in let slip i := vel d sP i - vel d sM i in
  dot d tau slip = - (norm d tau * norm d slip) /\ dot d tau slip <= 0.
Proof.
  intros (_ & _ & _ & _ & _ & _ & C1 & C2 & C3). cbv zeta. set (tau := fun i => tangential d n (traction d sP n) i + bg i) in *. set (slip := fun i => vel d sP i - vel d sM i) in *.
  assert (X : dot d tau slip = - (norm d tau * norm d slip)).
  { destruct (Req_dec (norm d tau) 0) as [Z|Z].
    - rewrite Z. assert (Y : dot d tau slip = 0); [|rewrite Y; ring]. unfold dot. apply sum_zero. intros i Hi. rewrite (norm_zero_inv d tau i Z Hi). ring.
    - apply Rmult_eq_reg_l with (norm d tau); [|assumption]. transitivity (sum d (fun i => norm d tau * (tau i * slip i))); [unfold dot; symmetry; apply sum_scal|].
      rewrite (sum_ext d _ (fun i => - norm d slip * (tau i * tau i))) by (intros i Hi; assert (C4 : norm d tau * slip i = - (norm d slip * tau i)) by exact (C3 i Hi); transitivity (tau i * (norm d tau * slip i)); [ring|rewrite C4; ring]).
      rewrite sum_scal. change (sum d (fun i => tau i * tau i)) with (dot d tau tau). rewrite <- norm_sqr. ring. }
  split; [exact X|]. rewrite X. pose proof (Rmult_le_pos _ _ (norm_pos d tau) (norm_pos d slip)). lra.
Qed.
Theorem C72_locked d l r n bg st qL qR sL sR : dim d -> riemann d l r n qL qR sL sR ->
  norm d (fun i => tangential d n (traction d sL n) i + bg i) <= st (dot d (traction d sL n) n) -> faultStates d l r n bg st qL qR sL sR.
Proof.
  intros D (L1 & L2 & W1 & W2 & TC & VC) H. repeat (split; [assumption|]). split; [apply dot_ext; auto|]. split; [exact H|].
  assert (Z : forall i, (i < d)%nat -> vel d sL i - vel d sR i = 0) by (intros i Hi; rewrite (VC i Hi); ring). split.
  - intros (i & Hi & X). specialize (Z i Hi). cbv beta in X. contradiction.
  - intros i Hi. rewrite (norm_zero d (fun i => vel d sL i - vel d sR i) Z), (Z i Hi). ring.
Qed.
Print Assumptions C72_wellposed.
Print Assumptions C72_dissipates.
Print Assumptions C72_locked.

(** states of a sub-face: background shear stress in the directions of the fault's coordinate system, strength in terms of the normal traction *)
Definition background3 (s t : R * R * R) (sf : @lswSf R) (i : nat) : R := nth 0 (sSs0 sf) 0 * co3 s i + nth 1 (sSs0 sf) 0 * co3 t i.
Definition strengthAt (sf : @lswSf R) (tn : R) : R := strength (sMuf sf) (sSn0 sf) (sCo0 sf) tn.

(** faults: the net updates are the scaled fluxes of the states that satisfy Coulomb's law; the law reports the shear traction, the slip rate and the strength *)
Theorem C72_friction3 tol b0 b1 b2 l r n s t area vL vR nSfs nScs : 0 < tol -> orthonormal b0 b1 b2 -> orthonormal n s t -> solid l -> solid r -> tol < Rabs (dot 3 (co3 b0) (co3 n)) ->
  exists so fa pref rm n' s' t',
  ibFace3R tol (Some (b0, b1, b2)) l r n s t area vL vR nSfs nScs = Ok so /\ lswFaInitR tol (dot 3 (co3 b0) (co3 n)) l r = Ok fa /\
  plusLeft pref (co3 b0) (co3 n) 3 /\ (forall i, (i < 3)%nat -> co3 n' i = if pref then co3 n i else - co3 n i) /\ turns rm (co3 b0) (co3 n') /\
  (forall i, (i < 3)%nat -> co3 s' i = applyM rm (co3 b1) i /\ co3 t' i = applyM rm (co3 b2) i) /\
  forall dt g sf qL qR sL sR, length qL = 9%nat -> length qR = 9%nat ->
  (if pref then faultStates 3 l r (co3 n') (background3 s' t' sf) (strengthAt sf) qL qR sL sR else faultStates 3 r l (co3 n') (background3 s' t' sf) (strengthAt sf) qR qL sR sL) ->
  exists per sf', netR 9 so (perturbR true dt fa g sf) dt qL qR =
    ((vscale (- (dt * ((area / nSfs) / (vL / nScs)))) (flux 3 l (co3 n) sL), vscale (dt * ((area / nSfs) / (vR / nScs))) (flux 3 r (co3 n) sR)), (per, sf')) /\
    (let tr := traction 3 sL (co3 n') in let slip i := if pref then vel 3 sL i - vel 3 sR i else vel 3 sR i - vel 3 sL i in
     (forall i, (i < 3)%nat -> nth 0 (sTr sf') 0 * co3 s' i + nth 1 (sTr sf') 0 * co3 t' i = tangential 3 (co3 n') tr i + background3 s' t' sf i /\
       nth 0 (sSr sf') 0 * co3 s' i + nth 1 (sSr sf') 0 * co3 t' i = slip i) /\
     (per = false -> forall i, (i < 3)%nat -> slip i = 0) /\ sSt sf' = strengthAt sf (dot 3 tr (co3 n'))).
Proof.
  intros T BO O L R P. destruct (crds3_ok tol b0 b1 b2 n s t T BO (ortho_unit3 _ _ _ O) P) as (rm & s' & t' & E & O' & Tu & V). set (pref := rltb 0 (dot 3 (co3 b0) (co3 n))) in *.
  assert (FE : exists fa, lswFaInitR tol (dot 3 (co3 b0) (co3 n)) l r = Ok fa). { unfold lswFaInitR, lswFaInit. rewrite fabsR. apply rltb_lt in P. rewrite P. cbn [check bind]. eauto. }
  destruct FE as (fa & FE). destruct (lswFa_ok tol _ l r fa T L R FE) as (F1 & F2 & F3). fold pref in F1, F2, F3.
  eexists. exists fa, pref, rm, (flip pref n), s', t'. split; [apply (ibFace3_ok _ _ _ _ _ _ _ _ _ _ _ _ _ _ _ _ E)|]. split; [exact FE|]. split; [split; apply rltb_lt|]. split.
  { intros i Hi. unfold flip. destruct pref; [reflexivity|]. destruct n as [[a b] c]. destruct i as [|[|[|]]]; try lia; reflexivity. }
  split; [exact Tu|]. split; [exact V|]. intros dt g sf qL qR sL sR LL LR FS.
  assert (FS' : faultStates 3 (pick pref l r) (pick pref r l) (co3 (flip pref n)) (bg3 s' t' sf) (stOf sf) (pick pref qL qR) (pick pref qR qL) (pick pref sL sR) (pick pref sR sL)) by (unfold pick; destruct pref; exact FS).
  destruct (friction3 pref l r n s' t' (scOf area vL nSfs nScs) (scOf area vR nSfs nScs) dt fa g sf qL qR _ _ O' L R LL LR F1 F2 F3 FS') as (per & sf' & N1 & N2 & N3 & N4).
  exists per, sf'. split.
  { rewrite N1. unfold pick, scOf. rewrite Ropp_mult_distr_l. destruct pref; reflexivity. }
  assert (TT : forall i, (i < 3)%nat -> traction 3 sL (co3 (flip pref n)) i = traction 3 (pick pref sL sR) (co3 (flip pref n)) i). { intros i Hi. unfold pick. destruct pref; [reflexivity|]. destruct FS as (_ & _ & _ & _ & X & _). symmetry. now apply X. }
  cbv zeta. split; [|split].
  - intros i Hi. destruct (N2 i Hi) as (A & B). rewrite A, B. split; [|unfold pick; destruct pref; reflexivity]. unfold bg3, background3. f_equal. apply tangential_ext; auto. intros; symmetry; auto.
  - intros Hp i Hi. specialize (N3 Hp i Hi). unfold pick in N3. destruct pref; lra.
  - rewrite N4. unfold strengthAt, stOf. f_equal. apply dot_ext; auto. intros; symmetry; auto.
Qed.
Print Assumptions C72_friction3.
(** a fault with nonzero slip *)
Example C72_friction3_ex : exists sP sM, faultStates 3 exL exR (co3 (1, 0, 0)) (background3 (0, 1, 0) (0, 0, 1) {| sSn0 := - (1); sCo0 := 0; sSs0 := [1; 0]; sMuf := 1 / 2; sSt := 0; sTr := []; sSr := []; sDd := [] |})
    (fun _ => 1 / 2) (zeros 9) (zeros 9) sP sM /\ vel 3 sP 1 - vel 3 sM 1 <> 0.
Proof.
  set (bg := background3 _ _ _). assert (SL : solid exL) by apply C68_ex. assert (SR : solid exR) by apply C68_ex. assert (U : dot 3 (co3 (1, 0, 0)) (co3 (1, 0, 0)) = 1) by (cbv [dot sum seq fold_left co3 fst snd]; ring).
  assert (BG : dot 3 bg (co3 (1, 0, 0)) = 0) by (cbv [dot sum seq fold_left co3 fst snd bg background3 nth sSs0]; ring).
  destruct (C72_wellposed 3 exL exR (co3 (1, 0, 0)) bg (fun _ => 1 / 2) (zeros 9) (zeros 9)) as (sP & sM & F & _); auto; [intros; lra|]. exists sP, sM. split; [exact F|].
  assert (C := fault_char 3 exL exR (co3 (1, 0, 0)) bg (fun _ => 1 / 2) (zeros 9) (zeros 9) dim3 U SL SR eq_refl eq_refl ltac:(lra) sP sM F 1%nat ltac:(lia)). cbv zeta in C. destruct C as (_ & _ & -> & ->).
  pose proof (zs_pos exL SL) as ZL. pose proof (zs_pos exR SR) as ZR.
  assert (Z : forall i, (i < 3)%nat -> starT 3 exL exR (co3 (1, 0, 0)) (zeros 9) (zeros 9) i = 0).
  { intros i Hi. unfold starT. cbv zeta. unfold wT, par, perp. destruct i as [|[|[|]]]; try lia; cbv [dot sum seq fold_left co3 fst snd traction sig vel zeros repeat nth posOf pairs nSt length Nat.eqb Nat.add andb orb]; unfold Rdiv; ring. }
  assert (W : forall i, (i < 3)%nat -> weldShear 3 exL exR (co3 (1, 0, 0)) bg (zeros 9) (zeros 9) i = co3 (0, 1, 0) i).
  { intros i Hi. unfold weldShear. rewrite (tangential_ext 3 (co3 (1, 0, 0)) _ (fun _ => 0)) by auto. destruct i as [|[|[|]]]; try lia; cbv [tangential dot sum seq fold_left co3 fst snd bg background3 nth sSs0]; ring. }
  assert (N : norm 3 (weldShear 3 exL exR (co3 (1, 0, 0)) bg (zeros 9) (zeros 9)) = 1). { rewrite (norm_ext 3 _ _ W). unfold norm. replace (dot 3 _ _) with 1 by (cbv [dot sum seq fold_left co3 fst snd]; ring). apply sqrt_1. }
  rewrite (W 1%nat) by lia. assert (Fa : factor 3 exL exR (co3 (1, 0, 0)) bg (fun _ => 1 / 2) (zeros 9) (zeros 9) = 1 / 2). { unfold factor. rewrite N. destruct (Rlt_dec _ _); lra. }
  rewrite Fa. cbn [co3 fst snd]. assert (Q1 : 0 < / zs exL) by (now apply Rinv_0_lt_compat). assert (Q2 : 0 < / zs exR) by (now apply Rinv_0_lt_compat). unfold Rdiv. lra.
Qed.

(** two dimensions; the plus side's tangent *)
Definition background2 (nx ny : R) (sf : @lswSf R) (i : nat) : R := nth 0 (sSs0 sf) 0 * co2 (- ny) nx i.
(** Missing: the law takes the sign of the background shear stress for that of the shear traction, see C72_friction2_refuted. Assumption: whenever the shear traction of the
    welded solution (sLw, sRw), with the background stress, exceeds the strength, it has the sign of the background stress *)
Theorem C72_friction2_partial tol b l r nx ny area vL vR nSfs nScs : 0 < tol -> unit2 nx ny -> solid l -> solid r -> tol < Rabs (dot 2 (co2 (fst b) (snd b)) (co2 nx ny)) ->
  exists so fa pref mx my,
  ibFace2R tol (Some b) l r (nx, ny) area vL vR nSfs nScs = Ok so /\ lswFaInitR tol (dot 2 (co2 (fst b) (snd b)) (co2 nx ny)) l r = Ok fa /\
  plusLeft pref (co2 (fst b) (snd b)) (co2 nx ny) 2 /\ mx = (if pref then nx else - nx) /\ my = (if pref then ny else - ny) /\
  forall dt g sf qL qR sL sR sLw sRw, length qL = 5%nat -> length qR = 5%nat ->
  (if pref then faultStates 2 l r (co2 mx my) (background2 mx my sf) (strengthAt sf) qL qR sL sR else faultStates 2 r l (co2 mx my) (background2 mx my sf) (strengthAt sf) qR qL sR sL) ->
  riemann 2 l r (co2 nx ny) qL qR sLw sRw ->
  (let shear := nth 0 (sSs0 sf) 0 + dot 2 (traction 2 sLw (co2 mx my)) (co2 (- my) mx) in
   strengthAt sf (dot 2 (traction 2 sLw (co2 mx my)) (co2 mx my)) < Rabs shear -> (0 < nth 0 (sSs0 sf) 0 <-> 0 < shear)) ->
  exists per sf', netR 5 so (perturbR false dt fa g sf) dt qL qR =
    ((vscale (- (dt * ((area / nSfs) / (vL / nScs)))) (flux 2 l (co2 nx ny) sL), vscale (dt * ((area / nSfs) / (vR / nScs))) (flux 2 r (co2 nx ny) sR)), (per, sf')) /\
    (let tr := traction 2 sL (co2 mx my) in let slip i := if pref then vel 2 sL i - vel 2 sR i else vel 2 sR i - vel 2 sL i in
     (forall i, (i < 2)%nat -> nth 0 (sTr sf') 0 * co2 (- my) mx i = tangential 2 (co2 mx my) tr i + background2 mx my sf i /\ nth 0 (sSr sf') 0 * co2 (- my) mx i = slip i) /\
     (per = false -> forall i, (i < 2)%nat -> slip i = 0) /\ sSt sf' = strengthAt sf (dot 2 tr (co2 mx my))).
Proof.
  intros T O L R P. set (sp := dot 2 (co2 (fst b) (snd b)) (co2 nx ny)) in *. set (pref := rltb 0 sp).
  assert (E : prefDirR tol (option_map (fun b => sprod2 Rplus Rmult b (nx, ny)) (Some b)) = Ok pref).
  { unfold prefDirR, prefDir. cbn [option_map]. rewrite fabsR.
    assert (X : sprod2 Rplus Rmult b (nx, ny) = sp) by (unfold sp; cbv [dot sum seq fold_left co2 sprod2 fst snd]; destruct b; ring). rewrite X. apply rltb_lt in P. rewrite P. reflexivity. }
  assert (FE : exists fa, lswFaInitR tol sp l r = Ok fa). { unfold lswFaInitR, lswFaInit. rewrite fabsR. apply rltb_lt in P. rewrite P. cbn [check bind]. eauto. }
  destruct FE as (fa & FE). destruct (lswFa_ok tol _ l r fa T L R FE) as (F1 & F2 & F3). fold pref in F1, F2, F3.
  eexists. exists fa, pref, (nx * sgn pref), (ny * sgn pref). split; [apply (ibFace2_ok _ _ _ _ _ _ _ _ _ _ _ E)|]. split; [exact FE|]. split; [split; apply rltb_lt|].
  split; [unfold sgn; destruct pref; ring|]. split; [unfold sgn; destruct pref; ring|]. intros dt g sf qL qR sL sR sLw sRw LL LR FS RW HYP. cbn [fst snd]. cbv zeta in HYP.
  set (mx := nx * sgn pref) in *. set (my := ny * sgn pref) in *.
  assert (FS' : faultStates 2 (pick pref l r) (pick pref r l) (co2 mx my) (bg2 mx my sf) (stOf sf) (pick pref qL qR) (pick pref qR qL) (pick pref sL sR) (pick pref sR sL)) by (unfold pick; destruct pref; exact FS).
  assert (U' : unit2 mx my) by (unfold mx, my, sgn, unit2 in *; destruct pref; lra).
  assert (TW : forall i, (i < 2)%nat -> traction 2 sLw (co2 mx my) i = starT 2 (pick pref l r) (pick pref r l) (co2 mx my) (pick pref qL qR) (pick pref qR qL) i).
  { intros i Hi. pose proof (riemann_pick2 pref l r nx ny qL qR sLw sRw RW) as RP. cbv zeta in RP. fold mx my in RP.
    assert (SP : solid (pick pref l r)) by (unfold pick; destruct pref; assumption). assert (SM : solid (pick pref r l)) by (unfold pick; destruct pref; assumption).
    assert (LP : length (pick pref qL qR) = nQt 2) by (unfold pick; destruct pref; assumption). assert (LM : length (pick pref qR qL) = nQt 2) by (unfold pick; destruct pref; assumption).
    destruct (riemann_star 2 _ _ _ _ _ _ _ dim2 (unit2_dot _ _ U') SP SM LP LM RP i Hi) as (_ & S2). rewrite <- S2. destruct RP as (_ & _ & _ & _ & X & _). specialize (X i Hi). unfold pick in X |- *. destruct pref; [reflexivity|symmetry; exact X]. }
  assert (HY : stOf sf (tn0 2 (pick pref l r) (pick pref r l) (co2 mx my) (pick pref qL qR) (pick pref qR qL)) < Rabs (shear2 (pick pref l r) (pick pref r l) mx my (pick pref qL qR) (pick pref qR qL) sf) ->
    (0 < nth 0 (sSs0 sf) 0 <-> 0 < shear2 (pick pref l r) (pick pref r l) mx my (pick pref qL qR) (pick pref qR qL) sf)).
  { unfold tn0, shear2. assert (X : forall w, dot 2 (starT 2 (pick pref l r) (pick pref r l) (co2 mx my) (pick pref qL qR) (pick pref qR qL)) w = dot 2 (traction 2 sLw (co2 mx my)) w) by (intros w; apply dot_ext; auto; intros; symmetry; auto). rewrite !X. exact HYP. }
  destruct (friction2 pref l r nx ny (scOf area vL nSfs nScs) (scOf area vR nSfs nScs) dt fa g sf qL qR (pick pref sL sR) (pick pref sR sL) O L R LL LR F1 F2 F3 HY FS') as (per & sf' & N1 & N2 & N3 & N4).
  fold mx my in N1, N2, N3, N4. exists per, sf'. split.
  { rewrite N1. unfold pick, scOf. rewrite Ropp_mult_distr_l. destruct pref; reflexivity. }
  assert (TT : forall i, (i < 2)%nat -> traction 2 sL (co2 mx my) i = traction 2 (pick pref sL sR) (co2 mx my) i). { intros i Hi. destruct FS' as (_ & _ & _ & _ & X & _). specialize (X i Hi). unfold pick in X |- *. destruct pref; [reflexivity|symmetry; exact X]. }
  cbv zeta. split; [|split].
  - intros i Hi. destruct (N2 i Hi) as (A & B). rewrite A, B. split; [|unfold pick; destruct pref; reflexivity]. unfold bg2, background2. f_equal. apply tangential_ext; auto. intros; symmetry; auto.
  - intros Hp i Hi. specialize (N3 Hp i Hi). unfold pick in N3. destruct pref; lra.
  - rewrite N4. unfold strengthAt, stOf. f_equal. apply dot_ext; auto. intros; symmetry; auto.
Qed.
Print Assumptions C72_friction2_partial.

(** a sliding fault with background stress 1, shear stress 2 of the states and strength 1 *)
Example C72_friction2_ex : let sf := {| sSn0 := - (1); sCo0 := 0; sSs0 := [1]; sMuf := 1; sSt := 0; sTr := [0]; sSr := [0]; sDd := [0] |} in let q := [0; 0; 2; 0; 0] in
  exists sP sM sLw sRw, faultStates 2 exL exL (co2 1 0) (background2 1 0 sf) (strengthAt sf) q q sP sM /\ riemann 2 exL exL (co2 1 0) q q sLw sRw /\
  let shear := nth 0 (sSs0 sf) 0 + dot 2 (traction 2 sLw (co2 1 0)) (co2 (- 0) 1) in
  strengthAt sf (dot 2 (traction 2 sLw (co2 1 0)) (co2 1 0)) < Rabs shear /\ 0 < nth 0 (sSs0 sf) 0 /\ 0 < shear.
Proof.
  intros sf q. assert (SL : solid exL) by apply C68_ex. assert (D1 : dot 2 (co2 1 0) (co2 1 0) = 1) by (cbv [dot sum seq fold_left co2]; ring).
  destruct (C72_wellposed 2 exL exL (co2 1 0) (background2 1 0 sf) (strengthAt sf) q q) as (sP & sM & F & _); auto; [cbv [dot sum seq fold_left co2 background2 nth sf sSs0]; ring|intros; apply strength_pos|].
  destruct (C68_wellposed 2 exL exL (co2 1 0) q q dim2 D1 SL SL eq_refl eq_refl) as (sL & sR & W & _). exists sP, sM, sL, sR. split; [exact F|]. split; [exact W|].
  assert (ST : forall i, (i < 2)%nat -> traction 2 sL (co2 1 0) i = co2 0 2 i).
  { pose proof (zp_pos exL SL) as ZP. pose proof (zs_pos exL SL) as ZS. intros i Hi. rewrite (proj2 (riemann_star 2 exL exL (co2 1 0) q q sL sR dim2 D1 SL SL eq_refl eq_refl W i Hi)). unfold starT. cbv zeta. unfold par, perp.
    destruct i as [|[|]]; try lia; unfold q; cbv [dot sum seq fold_left co2 fst snd traction sig vel nth posOf pairs nSt length Nat.eqb Nat.add andb orb]; field; split; lra. }
  assert (X : forall w, dot 2 (traction 2 sL (co2 1 0)) w = dot 2 (co2 0 2) w) by (intros; apply dot_ext; auto). cbv zeta. rewrite !X. cbv [dot sum seq fold_left co2 nth sf sSs0 strengthAt strength sMuf sSn0 sCo0].
  replace (- (1 * (- (1) + (0 + 0 * 1 + 2 * 0)) + 0)) with 1 by ring. rewrite Rmax_right, Rabs_right by lra. lra.
Qed.

(** Without background shear stress, and for a positive shear traction, the two-dimensional law answers with a traction in the direction of the slip, which adds energy: the states on both
    sides of the fault carry shear stress 2, the strength is 1. The law's shear traction is -1 where Coulomb's law requires 1 *)
Definition exSf : @lswSf R := {| sSn0 := - (1); sCo0 := 0; sSs0 := [0]; sMuf := 1; sSt := 0; sTr := [0]; sSr := [0]; sDd := [0] |}.
Theorem C72_friction2_refuted : exists tol b l r nx ny so fa g sf q, 0 < tol /\ unit2 nx ny /\ solid l /\ solid r /\ length q = 5%nat /\ sSs0 sf = [0] /\
  ibFace2R tol (Some b) l r (nx, ny) 1 1 1 1 1 = Ok so /\ lswFaInitR tol (dot 2 (co2 (fst b) (snd b)) (co2 nx ny)) l r = Ok fa /\
  forall dt, exists sf', snd (netR 5 so (perturbR false dt fa g sf) dt q q) = (true, sf') /\ nth 0 (sTr sf') 0 = - (1) /\ nth 0 (sSr sf') 0 < 0 /\
  0 < nth 0 (sTr sf') 0 * nth 0 (sSr sf') 0 /\
  (forall sP sM, faultStates 2 l r (co2 nx ny) (background2 nx ny sf) (strengthAt sf) q q sP sM -> dot 2 (traction 2 sP (co2 nx ny)) (co2 (- ny) nx) = 1).
Proof.
  assert (SL : solid exL) by apply C68_ex. set (q := [0; 0; 2; 0; 0]). set (g := {| gMus := 1; gMud := 1 / 2; gDcInv := 1 |}).
  assert (D1 : dot 2 (co2 1 0) (co2 1 0) = 1) by (cbv [dot sum seq fold_left co2]; ring). assert (U : unit2 1 0) by (unfold unit2; ring).
  assert (B : rltb (1 / 100) (Rabs 1) = true) by (apply rltb_lt; rewrite Rabs_right; lra).
  destruct (C71_interface2 (1 / 100) (Some (1, 0)) exL exL 1 0 1 1 1 1 1) as (so & Eso & _); auto; [lra|cbn [fst snd]; rewrite D1, Rabs_right; lra|].
  assert (Eso2 := ibFace2_ok (1 / 100) (Some (1, 0)) exL exL (1, 0) 1 1 1 1 1 true).
  assert (EP : prefDirR (1 / 100) (option_map (fun b => sprod2 Rplus Rmult b (1, 0)) (Some (1, 0))) = Ok true).
  { unfold prefDirR, prefDir. cbn [option_map]. rewrite fabsR. replace (sprod2 Rplus Rmult (1, 0) (1, 0)) with 1 by (cbv [sprod2 fst snd]; ring). rewrite B. cbn [check bind]. f_equal. apply rltb_lt. lra. }
  specialize (Eso2 EP). rewrite Eso in Eso2. injection Eso2 as Eso2. cbn [fst snd] in Eso2. unfold sgn in Eso2. rewrite !Rmult_1_r in Eso2.
  assert (FE : exists fa, lswFaInitR (1 / 100) (dot 2 (co2 1 0) (co2 1 0)) exL exL = Ok fa). { unfold lswFaInitR, lswFaInit. rewrite fabsR, D1, B. cbn [check bind]. eauto. }
  destruct FE as (fa & FE). destruct (lswFa_ok (1 / 100) _ _ _ fa ltac:(lra) SL SL FE) as (F1 & F2 & F3). pose proof (zs_pos exL SL) as Z. assert (Zi : 0 < 1 / zs exL) by (apply Rdiv_lt_0_compat; lra).
  assert (PK : forall b, zs (pick b exL exL) = zs exL) by (intros []; reflexivity). rewrite PK in F2, F3.
  exists (1 / 100), (1, 0), exL, exL, 1, 0, so, fa, g, exSf, q. split; [lra|]. split; [exact U|]. split; [exact SL|]. split; [exact SL|]. split; [reflexivity|]. split; [reflexivity|]. split; [exact Eso|]. split; [exact FE|]. intros dt.
  assert (MS : addJump 5 (ibJump so) (mv 5 5 (ibTm1 so) q) (mv 5 5 (ibTm1 so) q) = q).
  { rewrite addJump_same by apply len_mv. rewrite Eso2. cbn [solv2 ibTm1]. unfold q, tri2, trafoInv2R, trafoInv2, sq, two. cbv [mv map seq sum fold_left nth Nat.mul Nat.add]. leq; ring. }
  assert (N0 : exists zL zR sf', perturbR false dt fa g exSf q = ((zL, zR), (true, sf')) /\ nth 0 (sTr sf') 0 = - (1) /\ nth 0 (sSr sf') 0 = - (3) * (fCsP fa + fCsM fa)).
  { unfold perturbR, perturb, linSlipWeak2. cbv zeta. rewrite strength_R. unfold q, exSf, strength. cbn [at_ nth sMuf sSn0 sCo0 sSs0]. rewrite !fabsR.
    replace (- (1 * (- (1) + 0) + 0)) with 1 by ring. rewrite (Rmax_right 0 1) by lra. replace (0 + 2) with 2 by ring. rewrite (Rabs_right 2) by lra. rewrite Rabs_R0.
    assert (X1 : rltb 1 2 = true) by (apply rltb_lt; lra). assert (X2 : rltb 0 0 = false) by (unfold rltb; destruct (Rlt_dec 0 0); [lra|reflexivity]). rewrite X1, X2.
    destruct (fLEqM fa); (do 3 eexists; split; [reflexivity|]); unfold at_; cbn [sTr sSr nth upd]; split; ring. }
  destruct N0 as (zL & zR & sf' & E0 & E1 & E2). exists sf'. rewrite (net_unfold 5 so (perturbR false dt fa g exSf) dt q q zL zR (true, sf')) by (rewrite MS; exact E0). split; [reflexivity|]. split; [exact E1|].
  assert (S3 : nth 0 (sSr sf') 0 < 0) by (rewrite E2, F2, F3; lra). split; [exact S3|]. split; [rewrite E1; lra|].
  intros sP sM FS.
  assert (C := fun i Hi => proj1 (fault_char 2 exL exL (co2 1 0) (background2 1 0 exSf) (strengthAt exSf) q q dim2 D1 SL SL eq_refl eq_refl (strength_pos _ _ _ _) sP sM FS i Hi)). cbv zeta in C.
  assert (ST : forall i, (i < 2)%nat -> starT 2 exL exL (co2 1 0) q q i = co2 0 2 i).
  { pose proof (zp_pos exL SL) as ZP. intros i Hi. unfold starT. cbv zeta. unfold par, perp. destruct i as [|[|]]; try lia; unfold q; cbv [dot sum seq fold_left co2 fst snd traction sig vel nth posOf pairs nSt length Nat.eqb Nat.add andb orb]; field; split; lra. }
  assert (W : forall i, (i < 2)%nat -> weldShear 2 exL exL (co2 1 0) (background2 1 0 exSf) q q i = co2 0 2 i).
  { intros i Hi. unfold weldShear. rewrite (tangential_ext 2 (co2 1 0) _ (co2 0 2)) by auto. destruct i as [|[|]]; try lia; cbv [tangential dot sum seq fold_left co2 background2 nth sSs0 exSf]; ring. }
  assert (TN : tn0 2 exL exL (co2 1 0) q q = 0). { unfold tn0. rewrite (dot_ext 2 _ (co2 1 0) (co2 0 2) (co2 1 0)) by auto. cbv [dot sum seq fold_left co2]. ring. }
  assert (NO : norm 2 (weldShear 2 exL exL (co2 1 0) (background2 1 0 exSf) q q) = 2). { rewrite (norm_ext 2 _ _ W). unfold norm. replace (dot 2 _ _) with (2 * 2) by (cbv [dot sum seq fold_left co2]; ring). apply sqrt_square. lra. }
  assert (Fa : factor 2 exL exL (co2 1 0) (background2 1 0 exSf) (strengthAt exSf) q q = 1 / 2).
  { unfold factor. rewrite NO, TN. assert (X : strengthAt exSf 0 = 1). { unfold strengthAt, strength, exSf. cbn [sMuf sSn0 sCo0]. replace (- (1 * (- (1) + 0) + 0)) with 1 by ring. apply Rmax_right. lra. } rewrite X. destruct (Rlt_dec 1 2); lra. }
  rewrite (dot_ext 2 _ (co2 (- 0) 1) (fun i => co2 0 2 i + (1 / 2 - 1) * co2 0 2 i) (co2 (- 0) 1)) by (auto; intros i Hi; rewrite (C i Hi), (ST i Hi), (W i Hi), Fa; reflexivity). cbv [dot sum seq fold_left co2]. lra.
Qed.
Print Assumptions C72_friction2_refuted.

(** ** C73: slip weakening *)

(** Any sequence of time steps (dt, middle state) at a sub-face. The background stress does not change; the friction coefficient depends only on the accumulated slip by the law of
    linear slip weakening: it falls from the static to the dynamic coefficient and never rises. [data]: fault data, [dom]: initial stresses of a domain *)
Theorem C73_weakening tol maxT dim3 mus mud dc g fa data dom steps : 0 <= tol -> mud <= mus -> lswGlInitR tol mus mud dc = Ok g -> Forall (fun x => 0 <= fst x) steps ->
  let s0 := lswSfInitR maxT (nSh dim3) mus data dom in
  let h := history (lswStep dim3 fa g) s0 steps in
  length h = length steps /\ (dom <> None -> sMuf s0 = mus) /\
  (forall k s, nth_error h k = Some s ->
     sSn0 s = sSn0 s0 /\ sCo0 s = sCo0 s0 /\ sSs0 s = sSs0 s0 /\
     (forall c, (c < nSh dim3)%nat -> nth c (sDd s) 0 = slipSum c (firstn (S k) steps) h) /\
     sMuf s = weakened mus mud dc (slipOf dim3 (fun c => slipSum c (firstn (S k) steps) h)) /\
     mud <= sMuf s <= mus /\ (dc <= slipOf dim3 (fun c => slipSum c (firstn (S k) steps) h) -> sMuf s = mud)) /\
  (forall j k sj sk, (j <= k)%nat -> nth_error h j = Some sj -> nth_error h k = Some sk -> sMuf sk <= sMuf sj).
Proof.
  intros T M G F. cbv zeta. set (s0 := lswSfInitR maxT (nSh dim3) mus data dom). unfold lswGlInitR, lswGlInit, check in G.
  destruct (rltb tol mus); cbn [bind] in G; [|discriminate]. destruct (rltb tol mud); cbn [bind] in G; [|discriminate]. destruct (rltb tol dc) eqn:E; cbn [bind] in G; [|discriminate].
  apply rltb_lt in E. assert (D : 0 < dc) by lra. injection G as <-. set (g := {| gMus := mus; gMud := mud; gDcInv := 1 / dc |}).
  assert (Z : forall c, (c < nSh dim3)%nat -> nth c (sDd s0) 0 = 0). { intros c Hc. unfold s0, lswSfInitR, lswSfInit. destruct data as [[[? ?] ?]|], dom; cbn [sDd]; apply nth_repeat. }
  assert (HM := hist_mono dim3 fa g dc D eq_refl steps s0 F M Z). destruct HM as (H1 & H2).
  split; [apply hist_len|]. split; [|split; [|exact H2]].
  - intros X. unfold s0, lswSfInitR, lswSfInit. destruct data as [[[? ?] ?]|], dom; try contradiction; reflexivity.
  - intros k s Hs. destruct (hist_ok dim3 fa g dc D eq_refl steps s0 k s Hs) as (P1 & P2 & P3 & P4 & P5). repeat (split; [assumption|]).
    assert (P4' : forall c, (c < nSh dim3)%nat -> nth c (sDd s) 0 = slipSum c (firstn (S k) steps) (history (lswStep dim3 fa g) s0 steps)) by (intros c Hc; rewrite P4, Z by assumption; ring).
    split; [exact P4'|].
    assert (SE : slipOf dim3 (fun c => nth c (sDd s) 0) = slipOf dim3 (fun c => slipSum c (firstn (S k) steps) (history (lswStep dim3 fa g) s0 steps))).
    { unfold slipOf. destruct dim3; rewrite ?P4' by (cbn; lia); reflexivity. }
    rewrite SE in P5. split; [exact P5|]. split; [apply (H1 k s Hs)|]. intros X. rewrite P5. now apply weakened_full.
Qed.
Print Assumptions C73_weakening.
Example C73_weakening_ex : exists g, lswGlInitR (1 / 100) (3 / 5) (1 / 2) 2 = Ok g.
Proof.
  unfold lswGlInitR, lswGlInit, check. rewrite (proj2 (rltb_lt _ _ : rltb (1 / 100) (3 / 5) = true <-> _)) by lra. cbn [bind]. rewrite (proj2 (rltb_lt _ _ : rltb (1 / 100) (1 / 2) = true <-> _)) by lra. cbn [bind].
  rewrite (proj2 (rltb_lt _ _ : rltb (1 / 100) 2 = true <-> _)) by lra. cbn [bind]. eauto.
Qed.

(** With fault data (and no domain) the friction coefficient of the first time step is the largest number, not the static coefficient: the fault does not fail although the shear
    stress exceeds the static strength *)
Theorem C73_data_refuted : exists mus mud dc g data, lswGlInitR (1 / 100) mus mud dc = Ok g /\
  forall maxT dt fa, 1 <= maxT -> let s0 := lswSfInitR maxT 1 mus (Some data) None in
    strength mus (sSn0 s0) (sCo0 s0) 0 < Rabs (nth 0 (sSs0 s0) 0) /\ fst (snd (perturbR false dt fa g s0 [0; 0; 0; 0; 0])) = false /\
    sMuf (lswStep false fa g s0 (dt, [0; 0; 0; 0; 0])) = mus.
Proof.
  destruct C73_weakening_ex as (g & G). exists (3 / 5), (1 / 2), 2, g, (- (10), 0, [7]). split; [exact G|]. intros maxT dt fa HM s0.
  assert (A : strength (3 / 5) (sSn0 s0) (sCo0 s0) 0 = 6). { unfold strength, s0, lswSfInitR, lswSfInit. cbn [sSn0 sCo0]. rewrite Rmax_right; lra. }
  split; [rewrite A; unfold s0; cbn [lswSfInitR lswSfInit sSs0 nth]; rewrite Rabs_right; lra|].
  assert (B : rltb (strength maxT (- (10)) 0 0) (Rabs (7 + 0)) = false). { unfold strength, rltb. destruct (Rlt_dec _ _) as [X|X]; [|reflexivity]. exfalso. rewrite Rabs_right in X by lra. rewrite Rmax_right in X by lra. lra. }
  assert (P : exists z, linSlipWeak2 0 Rplus Rminus Rmult Ropp rltb dt fa g [0; 0; 0; 0; 0] s0 = (((z, z), false), snd (linSlipWeak2 0 Rplus Rminus Rmult Ropp rltb dt fa g [0; 0; 0; 0; 0] s0)) /\
    sDd (snd (linSlipWeak2 0 Rplus Rminus Rmult Ropp rltb dt fa g [0; 0; 0; 0; 0] s0)) = [0]).
  { unfold linSlipWeak2. cbv zeta. rewrite strength_R. unfold s0, lswSfInitR, lswSfInit. cbn [sMuf sSn0 sCo0 sSs0 sDd at_ nth repeat upd snd]. rewrite !fabsR. unfold at_. cbn [nth]. rewrite B.
    exists [0; 0; 0; 0; 0]. replace (0 - fCsM fa * (0 - 0)) with 0 by ring. replace (0 + fCsP fa * (0 - 0)) with 0 by ring. split; [reflexivity|]. cbn [upd nth]. rewrite Rminus_0_r, Rabs_R0. f_equal. ring. }
  destruct P as (z & P1 & P2). unfold perturbR, perturb. rewrite P1. split; [destruct (fLEqM fa); reflexivity|].
  unfold lswGlInitR, lswGlInit, check in G. destruct (rltb (1 / 100) (3 / 5)); cbn [bind] in G; [|discriminate]. destruct (rltb (1 / 100) (1 / 2)); cbn [bind] in G; [|discriminate]. destruct (rltb (1 / 100) 2); cbn [bind] in G; [|discriminate]. injection G as <-.
  rewrite (proj2 (proj2 (proj2 (proj2 (step_ok false fa {| gMus := 3 / 5; gMud := 1 / 2; gDcInv := 1 / 2 |} 2 s0 (dt, [0; 0; 0; 0; 0]) ltac:(lra) eq_refl))))). cbn [gMus gMud slipOf].
  assert (Q : lswStep false fa {| gMus := 3 / 5; gMud := 1 / 2; gDcInv := 1 / 2 |} s0 (dt, [0; 0; 0; 0; 0]) = snd (linSlipWeak2 0 Rplus Rminus Rmult Ropp rltb dt fa {| gMus := 3 / 5; gMud := 1 / 2; gDcInv := 1 / 2 |} [0; 0; 0; 0; 0] s0)).
  { unfold lswStep, perturbR, perturb. cbn [fst snd]. rewrite P1. cbn [fst snd]. reflexivity. }
  rewrite Q, P2. cbn [nth]. apply weakened_0; lra.
Qed.
Print Assumptions C73_data_refuted.
