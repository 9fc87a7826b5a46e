(** Proofs about the local Lax-Friedrichs solver. *)
From Coq Require Import List Arith Bool Reals Lra Lia.
From Verif Require Import Util MatMul ElGen Elastic ElSpec ElWave ElTrafo ElFlux ElMid ElMid2 ElFace Llf LlfSpec.
Import ListNotations.
Open Scope R_scope.

Lemma nQts_eq d : dim d -> nQts d = nQt d. Proof. intros [-> | ->]; reflexivity. Qed.

(** ** Central fluxes *)
Definition solves (d : nat) (c : R) (m : material) (n : nat -> R) (C : list R) : Prop :=
  length C = (nQt d * nQt d)%nat /\ forall q, length q = nQt d -> mv (nQt d) (nQt d) C q = vscale c (flux d m n q).

Lemma nth_map0 (f : R -> R) l i : f 0 = 0 -> nth i (map f l) 0 = f (nth i l 0).
Proof. intros H. rewrite <- H at 1. apply map_nth. Qed.
Lemma mv_scale m n a q c : mv m n (map (fun x => x * c) a) q = vscale c (mv m n a q).
Proof.
  unfold mv, vscale. rewrite map_map. apply map_ext. intros i. rewrite <- sum_scal. apply sum_ext. intros j _. rewrite (nth_map0 (fun x => x * c)) by ring. ring.
Qed.

Lemma jac2_mid m a : rd (getJac2 0 1 Rplus Rminus Rmult Rdiv Ropp (rho m) (lam m) (mu m)) 0 = Ok a -> length a = 25%nat /\ forall t0 x1 t1 v0 v1,
  mv 5 5 a [t0; x1; t1; v0; v1] = [- ((lam m + 2 * mu m) * v0); - (lam m * v0); - (mu m * v1); - (t0 / rho m); - (t1 / rho m)].
Proof.
  intros A. apply rd_inv in A. injection A as <-. split; [reflexivity|]. intros. cbv [mv sum map seq fold_left nth Nat.mul Nat.add setEntries fst snd repeat upd two]. unfold Rdiv. leq; ring.
Qed.
Lemma jac3_mid m a : rd (getJac3 0 1 Rplus Rminus Rmult Rdiv Ropp (rho m) (lam m) (mu m)) 0 = Ok a -> length a = 81%nat /\ forall t0 x1 x2 t1 x4 t2 v0 v1 v2,
  mv 9 9 a [t0; x1; x2; t1; x4; t2; v0; v1; v2] =
  [- ((lam m + 2 * mu m) * v0); - (lam m * v0); - (lam m * v0); - (mu m * v1); 0; - (mu m * v2); - (t0 / rho m); - (t1 / rho m); - (t2 / rho m)].
Proof.
  intros A. apply rd_inv in A. injection A as <-. split; [reflexivity|]. intros. cbv [mv sum map seq fold_left nth Nat.mul Nat.add setEntries fst snd repeat upd two]. unfold Rdiv. leq; ring.
Qed.

Lemma central2 m nx ny : unit2 nx ny -> exists C, centralL2 m nx ny = Ok C /\ solves 2 (- (1 / 2)) m (co2 nx ny) C.
Proof.
  intros U. unfold centralL2. destruct (rd _ 0) as [a|] eqn:A; [|discriminate A]. apply jac2_mid in A. destruct A as (LA & VA). cbn [bind]. cbv zeta.
  destruct (mv_mul 5 5 5 (tr2 nx ny) a (repeat 0 25) eq_refl eq_refl LA) as (p & E & L & V). rewrite E. cbn [bind].
  destruct (mv_mul 5 5 5 p (tri2 nx ny) (repeat 0 25) eq_refl L eq_refl) as (p' & E' & L' & V'). rewrite E'. cbn [bind].
  eexists. split; [reflexivity|]. split; [rewrite map_length; exact L'|]. intros q Lq. change (nQt 2) with 5%nat in *. rewrite mv_scale. f_equal. rewrite V', V.
  destruct (faceState2 nx ny q U Lq) as (x1 & F). cbv zeta in F. rewrite F, VA, faceFlux2 by auto. symmetry. apply flux_VT; [exact dim2| |].
  - intros i Hi. rewrite <- (par_perp 2 (co2 nx ny) (vel 2 q) i), perp_frame2 by auto. unfold par. ring.
  - intros i Hi. rewrite <- (par_perp 2 (co2 nx ny) (traction 2 q (co2 nx ny)) i), perp_frame2 by auto. unfold par. ring.
Qed.
Lemma central3 m n s t : orthonormal n s t -> exists C, centralL3 m n s t = Ok C /\ solves 3 (- (1 / 2)) m (co3 n) C.
Proof.
  intros U. unfold centralL3. destruct (rd _ 0) as [a|] eqn:A; [|discriminate A]. apply jac3_mid in A. destruct A as (LA & VA).
  assert (X : forall B (k : R -> R -> R -> R -> R -> R -> R -> R -> R -> B), (let '(nx, ny, nz) := n in let '(sx, sy, sz) := s in let '(tx, ty, tz) := t in k nx ny nz sx sy sz tx ty tz) =
     k (co3 n 0) (co3 n 1) (co3 n 2) (co3 s 0) (co3 s 1) (co3 s 2) (co3 t 0) (co3 t 1) (co3 t 2)).
  { intros. destruct n as ((? & ?) & ?), s as ((? & ?) & ?), t as ((? & ?) & ?). reflexivity. }
  rewrite X. clear X. cbn [bind]. cbv zeta.
  destruct (mv_mul 9 9 9 (tr3 n s t) a (repeat 0 81) eq_refl eq_refl LA) as (p & E & L & V). rewrite E. cbn [bind].
  destruct (mv_mul 9 9 9 p (tri3 n s t) (repeat 0 81) eq_refl L eq_refl) as (p' & E' & L' & V'). rewrite E'. cbn [bind].
  eexists. split; [reflexivity|]. split; [rewrite map_length; exact L'|]. intros q Lq. change (nQt 3) with 9%nat in *. rewrite mv_scale. f_equal. rewrite V', V.
  destruct (faceState3 n s t q U Lq) as (x1 & x2 & x4 & F). cbv zeta in F. rewrite F, VA, faceFlux3 by auto. symmetry. apply flux_VT; [exact dim3| |].
  - intros i Hi. rewrite <- (par_perp 3 (co3 n) (vel 3 q) i), (perp_frame3 n s t) by auto. unfold par. ring.
  - intros i Hi. rewrite <- (par_perp 3 (co3 n) (traction 3 q (co3 n)) i), (perp_frame3 n s t) by auto. unfold par. ring.
Qed.
Lemma central_ok d m f : dim d -> validFrame d f -> exists C, centralL d m f = Ok C /\ solves d (- (1 / 2)) m (nrm f) C.
Proof.
  intros [-> | ->] V; unfold centralL, validFrame, nrm in *; cbn [Nat.eqb] in *.
  - destruct (central2 m _ _ V) as (C & E & L & F). exists C. split; [auto|]. split; [auto|]. intros q Lq. rewrite F by auto. reflexivity.
  - apply central3. exact V.
Qed.

(** ** Set-up *)
(** entry [i] of the memory: solver and viscosity of a plane with scaling [c] *)
Definition entry (d : nat) (c : R) (m : material) (s : R) (n : nat -> R) (mem : list (list R) * list R) (i : nat) : Prop :=
  exists C, nth_error (fst mem) i = Some C /\ solves d (- (1 / 2) * c) m n C /\ nth_error (snd mem) i = Some (- (1 / 2) * s * c).
Definition same (mem mem' : list (list R) * list R) (i : nat) : Prop := nth_error (fst mem') i = nth_error (fst mem) i /\ nth_error (snd mem') i = nth_error (snd mem) i.
Lemma entry_same d c m s n mem mem' i : same mem mem' i -> entry d c m s n mem i -> entry d c m s n mem' i.
Proof. intros (A & B) (C & H). exists C. rewrite A, B. exact H. Qed.
Definition lens (k : nat) (mem : list (list R) * list R) : Prop := length (fst mem) = k /\ length (snd mem) = k.

Lemma solves_scale d c c' m n C : solves d c m n C -> solves d (c * c') m n (map (fun x => x * c') C).
Proof.
  intros (L & H). split; [rewrite map_length; auto|]. intros q Lq. rewrite mv_scale, H by auto. unfold vscale. rewrite map_map. apply map_ext. intros. ring.
Qed.
Lemma solves_c d c c' m n C : c = c' -> solves d c m n C -> solves d c' m n C. Proof. intros <-. auto. Qed.

Lemma scaleAt_ok d k c m s n sca i mem : lens k mem -> (i < k)%nat -> entry d c m s n mem i -> exists mem', scaleAt i sca mem = Ok mem' /\ lens k mem' /\ entry d (c * sca) m s n mem' i /\
  forall j, j <> i -> same mem mem' j.
Proof.
  intros (L1 & L2) Hi (C & A & S & B). unfold scaleAt. rewrite (rd_some _ _ _ B), (rd_some _ _ _ A). cbn [bind]. rewrite !wr_ok by lia. cbn [bind].
  eexists. split; [reflexivity|]. split; [split; cbn [fst snd]; rewrite length_upd; auto|]. split.
  - exists (map (fun x => x * sca) C). cbn [fst snd]. rewrite !nth_error_upd_eq by lia. split; [auto|]. split; [|f_equal; ring].
    apply solves_c with (- (1 / 2) * c * sca); [ring|]. apply solves_scale. exact S.
  - intros j Hj. split; cbn [fst snd]; rewrite nth_error_upd_ne; auto.
Qed.

Lemma velPOf_eq m : velPOf m = speedP m.
Proof. unfold velPOf, getVelP, speedP, two. reflexivity. Qed.

Section Setup.
Variables (d nsf nsc : nat) (mats : list material) (e : elem).
Hypothesis D : dim d.
Hypothesis W : wfElem d mats e.
Hypothesis N0 : (0 < nsc)%nat.
Let nf := nFaces e.
Let nt := nPlanes e.

Lemma adj_ok ty : (ty < nf)%nat -> exists a, adjOf (eId e) (eAdj e) ty = Ok a /\ nth_error mats a = Some (matAd mats e (Outer ty)) /\ (a <? eId e)%nat = negb (outward e ty).
Proof.
  intros H. destruct W as (A & B & C & _). unfold adjOf. rewrite (rd_ok _ _ None) by (rewrite A; exact H). cbn [bind]. unfold matAd, outward.
  destruct (nth ty (eAdj e) None) as [a|] eqn:E.
  - exists a. split; [auto|]. split; [|rewrite negb_involutive; auto]. apply nth_error_nth'. apply C. rewrite <- E. apply nth_In. rewrite A. exact H.
  - exists (eId e). split; [auto|]. split; [apply nth_error_nth'; auto|]. rewrite Nat.ltb_irrefl. reflexivity.
Qed.

Lemma frame_ok ty : (ty < nt)%nat -> exists f, frameOf nf (eId e) (eAdj e) (eFa e) (eAdd e) ty = Ok f /\ validFrame d f /\ fAr f = fAr (plane e ty) /\ (forall i, nrm f i = turn (planeDir e ty) (nrm (plane e ty)) i).
Proof.
  intros H. assert (VF : validFrame d (plane e ty)) by (apply W; apply nth_In; rewrite app_length; exact H).
  unfold frameOf, planeDir, plane in *. change (nFaces e) with nf. destruct (ty <? nf)%nat eqn:L.
  - apply Nat.ltb_lt in L. destruct (adj_ok ty L) as (a & -> & _ & E). cbn [bind]. rewrite (rd_ok _ _ noFace) by exact L. cbn [bind]. rewrite app_nth1 in * by exact L. rewrite E. clear E.
    destruct (nth ty (eFa e) noFace) as [((nx & ny) & nz) s t ar]. cbn [fN fS fT fAr] in *. eexists. split; [reflexivity|]. cbn [fAr].
    destruct (outward e ty); cbn [negb].
    + split; [exact VF|]. split; auto.
    + split; [|split; [auto|]].
      * unfold validFrame in *. cbn [fN fS fT fst snd] in *. destruct (d =? 2)%nat; [unfold unit2 in *; lra|]. unfold orthonormal in *. cbn [fst snd] in *. destruct VF as (?&?&?&?&?&?). repeat split; auto; lra.
      * intros i. unfold turn, neg, nrm. cbn [fN]. destruct i as [|[|[|]]]; cbn [co3 fst snd]; ring.
  - apply Nat.ltb_ge in L. rewrite app_nth2 in * by exact L. unfold nt, nPlanes in H. unfold nf, nFaces in *. rewrite (rd_ok _ _ noFace) by lia. eexists. split; [reflexivity|]. split; [exact VF|]. split; auto.
Qed.

Lemma frames_ok : exists fs, for_ 0 nt (fun ty fs => f <- frameOf nf (eId e) (eAdj e) (eFa e) (eAdd e) ty;; Ok (fs ++ [f])) [] = Ok fs /\
  forall ty, (ty < nt)%nat -> exists f, nth_error fs ty = Some f /\ validFrame d f /\ fAr f = fAr (plane e ty) /\ (forall i, nrm f i = turn (planeDir e ty) (nrm (plane e ty)) i).
Proof.
  destruct (for_ok (fun k fs => length fs = k /\ forall ty, (ty < k)%nat -> exists f, nth_error fs ty = Some f /\ validFrame d f /\ fAr f = fAr (plane e ty) /\ (forall i, nrm f i = turn (planeDir e ty) (nrm (plane e ty)) i))
    0 nt (fun ty fs => f <- frameOf nf (eId e) (eAdj e) (eFa e) (eAdd e) ty;; Ok (fs ++ [f])) []) as (fs & E & _ & H); [lia|split; [auto|intros; lia]| |exists fs; auto].
  intros k fs Hk (L & H). destruct (frame_ok k) as (f & -> & F); [lia|]. cbn [bind]. eexists. split; [reflexivity|]. split; [rewrite app_length; cbn; lia|].
  intros ty Ht. destruct (Nat.eq_dec ty k) as [->|N].
  - exists f. split; [|exact F]. rewrite nth_error_app2, L, Nat.sub_diag by lia. reflexivity.
  - destruct (H ty) as (g & G & R); [lia|]. exists g. split; [|exact R]. rewrite nth_error_app1 by lia. exact G.
Qed.

Definition pnrm (ty : nat) : nat -> R := turn (planeDir e ty) (nrm (plane e ty)).
Definition vmax (ty : nat) : R := Rmax (speedP (matEl mats e)) (speedP (matAd mats e (Outer ty))).
(** entries of plane [ty]: material of the element; of the adjacent element *)
Definition own (c : R) (mem : list (list R) * list R) (ty : nat) : Prop := entry d c (matEl mats e) (speedP (matEl mats e)) (pnrm ty) mem ty.
Definition oth (c : R) (mem : list (list R) * list R) (ty : nat) : Prop := (ty < nf)%nat -> entry d c (matAd mats e (Outer ty)) (vmax ty) (pnrm ty) mem (nt + ty).
Lemma own_same c mem mem' ty : same mem mem' ty -> own c mem ty -> own c mem' ty. Proof. apply entry_same. Qed.
Lemma oth_same c mem mem' ty : same mem mem' (nt + ty) -> oth c mem ty -> oth c mem' ty. Proof. intros S H L. apply entry_same with mem; auto. Qed.

Lemma central_pl m f ty : validFrame d f -> (forall i, nrm f i = pnrm ty i) -> exists C, centralL d m f = Ok C /\ solves d (- (1 / 2) * 1) m (pnrm ty) C.
Proof.
  intros V E. destruct (central_ok d m f D V) as (C & H & L & S). exists C. split; [auto|]. split; [auto|]. intros q Lq. rewrite S by auto. rewrite Rmult_1_r. f_equal. apply flux_ext; auto.
Qed.

Lemma same_trans a b c i : same a b i -> same b c i -> same a c i. Proof. unfold same. intros (A & B) (A' & B'). rewrite A', B'. auto. Qed.

Lemma unscaled_ok fs mem k : k = (nt + nf)%nat -> lens k mem -> (forall ty, (ty < nt)%nat -> exists f, nth_error fs ty = Some f /\ validFrame d f /\ fAr f = fAr (plane e ty) /\ (forall i, nrm f i = pnrm ty i)) ->
  exists mem', unscaled d nf nt (eId e) (eAdj e) mats fs mem = Ok mem' /\ lens k mem' /\ forall ty, (ty < nt)%nat -> own 1 mem' ty /\ oth 1 mem' ty.
Proof.
  intros K LM F. unfold unscaled. assert (ME : nth_error mats (eId e) = Some (matEl mats e)) by (apply nth_error_nth'; apply (proj1 (proj2 W))). rewrite (rd_some _ _ _ ME). cbn [bind].
  match goal with |- exists _, for_ 0 nt ?b mem = _ /\ _ =>
    destruct (for_ok (fun i mem' => lens k mem' /\ forall ty, (ty < i)%nat -> own 1 mem' ty /\ oth 1 mem' ty) 0 nt b mem) as (mem' & E & L & H); [lia|split; [auto|intros; lia]| |exists mem'; auto] end.
  intros ty (cen & vis) Ht ((L1 & L2) & H). cbn [fst snd] in *. destruct (F ty) as (f & Ef & VF & _ & NF); [lia|]. rewrite (rd_some _ _ _ Ef). cbn [bind].
  destruct (central_pl (matEl mats e) f ty VF NF) as (C & EC & SC).
  assert (X : exists cen1 vis1, (if (ty <? nf)%nat
     then ad <- adjOf (eId e) (eAdj e) ty;; ma <- rd mats ad;; c <- centralL d ma f;; cen <- wr cen (nt + ty) c;; vis <- wr vis (nt + ty) (- (1 / 2) * Rmax (velPOf (matEl mats e)) (velPOf ma));; Ok (cen, vis)
     else Ok (cen, vis)) = Ok (cen1, vis1) /\ lens k (cen1, vis1) /\ oth 1 (cen1, vis1) ty /\ forall j, j <> (nt + ty)%nat -> same (cen, vis) (cen1, vis1) j).
  { destruct (ty <? nf)%nat eqn:E.
    - apply Nat.ltb_lt in E. destruct (adj_ok ty E) as (a & -> & MA & _). cbn [bind]. rewrite (rd_some _ _ _ MA). cbn [bind].
      destruct (central_pl (matAd mats e (Outer ty)) f ty VF NF) as (C' & -> & SC'). cbn [bind]. rewrite !wr_ok by lia. cbn [bind]. do 2 eexists. split; [reflexivity|].
      split; [split; cbn [fst snd]; rewrite length_upd; auto|]. split.
      + intros _. exists C'. cbn [fst snd]. rewrite !nth_error_upd_eq by lia. split; [auto|]. split; [auto|]. rewrite !velPOf_eq. unfold vmax. rewrite Rmult_1_r. reflexivity.
      + intros j Hj. split; cbn [fst snd]; rewrite nth_error_upd_ne; auto.
    - exists cen, vis. apply Nat.ltb_ge in E. split; [auto|]. split; [split; auto|]. split; [intros Z; lia|]. intros; split; auto. }
  destruct X as (cen1 & vis1 & -> & (M1 & M2) & O1 & S1). cbn [bind fst snd] in *. rewrite EC. cbn [bind]. rewrite !wr_ok by lia. cbn [bind]. eexists. split; [reflexivity|].
  assert (S2 : forall j, j <> ty -> same (cen1, vis1) (upd cen1 ty C, upd vis1 ty (- (1 / 2) * velPOf (matEl mats e))) j) by (intros j Hj; split; cbn [fst snd]; rewrite nth_error_upd_ne; auto).
  split; [split; cbn [fst snd]; rewrite length_upd; auto|]. intros t Hlt. destruct (Nat.eq_dec t ty) as [->|N].
  - split; [|apply oth_same with (cen1, vis1); auto; apply S2; lia]. exists C. cbn [fst snd]. rewrite !nth_error_upd_eq by lia. split; [auto|]. split; [auto|]. rewrite velPOf_eq, Rmult_1_r. reflexivity.
  - destruct (H t) as (A & B); [lia|]. split.
    + apply own_same with (cen, vis); auto. apply same_trans with (cen1, vis1); [apply S1; lia|apply S2; auto].
    + intros Lt. apply (oth_same 1 (cen, vis)); auto. apply same_trans with (cen1, vis1); [apply S1; lia|apply S2; lia].
Qed.

(** scaling of a plane: area of its sub-faces over volume of the sub-cells *)
Definition pscale (ty : nat) : R := fAr (plane e ty) / INR nsf * (INR nsc / eVol e).
Lemma scaled_ok fs mem k : k = (nt + nf)%nat -> lens k mem -> (forall ty, (ty < nt)%nat -> exists f, nth_error fs ty = Some f /\ fAr f = fAr (plane e ty)) -> (forall ty, (ty < nt)%nat -> own 1 mem ty /\ oth 1 mem ty) ->
  exists mem', scaled nf nt nsf nsc (eVol e) fs mem = Ok mem' /\ lens k mem' /\ forall ty, (ty < nt)%nat -> own (1 * pscale ty) mem' ty /\ oth (1 * pscale ty) mem' ty.
Proof.
  intros K LM F H0. unfold scaled.
  match goal with |- exists _, for_ 0 nt ?b mem = _ /\ _ =>
    destruct (for_ok (fun i mem' => lens k mem' /\ (forall ty, (ty < i)%nat -> own (1 * pscale ty) mem' ty /\ oth (1 * pscale ty) mem' ty) /\ forall ty, (i <= ty < nt)%nat -> own 1 mem' ty /\ oth 1 mem' ty) 0 nt b mem) as (mem' & E & L & H & _);
      [lia|split; [auto|split; intros; [lia|apply H0; lia]]| |exists mem'; auto] end.
  intros ty m0 Ht (L & A & B). destruct (F ty) as (f & Ef & AF); [lia|]. rewrite (rd_some _ _ _ Ef). cbn [bind]. rewrite AF. fold (pscale ty).
  destruct (B ty) as (Ow & Ot); [lia|]. assert (Kt : (ty < k)%nat) by lia. destruct (scaleAt_ok d k 1 _ _ _ (pscale ty) ty m0 L Kt Ow) as (m1 & -> & L1 & E1 & S1). cbn [bind].
  destruct (ty <? nf)%nat eqn:E.
  - apply Nat.ltb_lt in E. assert (X : entry d 1 (matAd mats e (Outer ty)) (vmax ty) (pnrm ty) m1 (nt + ty)) by (apply entry_same with m0; [apply S1; lia|auto]).
    assert (Kn : (nt + ty < k)%nat) by lia. destruct (scaleAt_ok d k 1 _ _ _ (pscale ty) (nt + ty) m1 L1 Kn X) as (m2 & -> & L2 & E2 & S2). exists m2. split; [auto|]. split; [auto|].
    assert (SS : forall j, j <> ty -> j <> (nt + ty)%nat -> same m0 m2 j) by (intros j J1 J2; apply same_trans with m1; [apply S1; auto|apply S2; auto]). split.
    + intros t Hlt. destruct (Nat.eq_dec t ty) as [->|N]; [split; [apply own_same with m1; [apply S2; lia|exact E1]|intros _; exact E2]|].
      destruct (A t) as (P & Q); [lia|]. split; [apply own_same with m0; auto; apply SS; lia|]. intros Lt. apply (oth_same _ m0); auto. apply SS; lia.
    + intros t Hlt. destruct (B t) as (P & Q); [lia|]. split; [apply own_same with m0; auto; apply SS; lia|]. intros Lt. apply (oth_same _ m0); auto. apply SS; lia.
  - apply Nat.ltb_ge in E. exists m1. split; [auto|]. split; [auto|]. split.
    + intros t Hlt. destruct (Nat.eq_dec t ty) as [->|N]; [split; [exact E1|intros Lt; lia]|].
      destruct (A t) as (P & Q); [lia|]. split; [apply own_same with m0; auto; apply S1; lia|]. intros Lt. apply (oth_same _ m0); auto. apply S1; lia.
    + intros t Hlt. destruct (B t) as (P & Q); [lia|]. split; [apply own_same with m0; auto; apply S1; lia|]. intros Lt. apply (oth_same _ m0); auto. apply S1; lia.
Qed.

Lemma init_ok mem : lens (nt + nf) mem -> exists mem', init d nf nt nsf nsc (eId e) (eAdj e) (eFa e) (eAdd e) mats (eVol e) mem = Ok mem' /\ lens (nt + nf) mem' /\
  forall ty, (ty < nt)%nat -> own (pscale ty) mem' ty /\ oth (pscale ty) mem' ty.
Proof.
  intros L. unfold init. destruct frames_ok as (fs & -> & F). cbn [bind].
  destruct (unscaled_ok fs mem _ eq_refl L F) as (m1 & -> & L1 & H1). cbn [bind].
  destruct (scaled_ok fs m1 _ eq_refl L1) as (m2 & -> & L2 & H2); [|exact H1|].
  - intros ty Ht. destruct (F ty Ht) as (f & A & _ & B & _). exists f. auto.
  - exists m2. split; [auto|]. split; [auto|]. intros ty Ht. specialize (H2 ty Ht). rewrite Rmult_1_l in H2. exact H2.
Qed.
End Setup.
