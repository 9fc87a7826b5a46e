(** Fluids: Riemann problem between two fluids, proofs about the acoustic flux solvers. *)
From Coq Require Import List Arith Bool Lia Reals Lra Field.
From Verif Require Import Util MatMul ElGen Elastic ElSpec ElWave ElFlux ElTrafo ElMid ElMid2.
Import ListNotations.
Open Scope R_scope.

Lemma fluid_cp m : fluid m -> 0 < speedP m /\ speedP m * speedP m * rho m = lam m /\ sqrt (lam m / rho m) = speedP m.
Proof.
  intros (R & M & L). assert (E : sqrt (lam m / rho m) = speedP m) by (unfold speedP; rewrite M; do 2 f_equal; ring). assert (P : 0 < lam m / rho m) by (apply Rdiv_lt_0_compat; auto).
  split; [rewrite <- E; apply sqrt_lt_R0, P|]. split; [|exact E]. rewrite <- E, sqrt_sqrt by lra. field. lra.
Qed.
Lemma fluid_cs m : fluid m -> speedS m = 0.
Proof. intros (R & M & L). unfold speedS. rewrite M. unfold Rdiv. rewrite Rmult_0_l. apply sqrt_0. Qed.
Lemma fluid_zp m : fluid m -> 0 < zp m.
Proof. intros F. apply Rmult_lt_0_compat; [apply F|apply fluid_cp, F]. Qed.

Lemma traction_vscale d c q n i : traction d (vscale c q) n i = c * traction d q n i.
Proof. unfold traction. rewrite <- sum_scal. apply sum_ext. intros. rewrite sig_vscale. ring. Qed.

Lemma fluid_wave d m n q : dim d -> dot d n n = 1 -> fluid m -> length q = nQt d -> entering d m n q ->
  forall i, (i < d)%nat -> traction d q n i = zp m * dot d (vel d q) n * n i.
Proof.
  intros D U F L (wp & ws & Lp & Ls & E & Ep & Es) i Hi. destruct (fluid_cp m F) as (CP & CP2 & _). rewrite (fluid_cs m F) in Es. destruct F as (R & M & LA).
  destruct (eigen d m n (speedP m) wp D U Lp R ltac:(lra) Ep) as (SP & _).
  assert (TP : traction d wp n i = zp m * dot d (vel d wp) n * n i).
  { unfold traction. rewrite (sum_ext d _ (fun j => lam m * dot d (vel d wp) n / speedP m * (delta i j * n j))).
    - rewrite sum_scal, sum_delta by auto. unfold zp. rewrite <- CP2. field. lra.
    - intros j Hj. rewrite SP, M by auto. field. lra. }
  assert (TS : traction d ws n i = 0).
  { assert (X := f_equal (fun q => vel d q i) Es). cbv beta in X. rewrite vel_flux, vel_vscale in X by auto. apply Rmult_eq_reg_r with (/ rho m); [|apply Rinv_neq_0_compat; lra]. unfold Rdiv in X. lra. }
  assert (DS : dot d (vel d ws) n = 0).
  { assert (H0 : (0 < d)%nat) by lia. assert (X := f_equal (fun q => sig d q 0 0) Es). cbv beta in X. rewrite sig_flux, sig_vscale in X by auto. rewrite M in X. unfold delta in X. cbn [Nat.eqb] in X.
    apply Rmult_eq_reg_l with (lam m); [|lra]. lra. }
  rewrite E, traction_vadd by lia. rewrite TP, TS. rewrite (dot_ext d (vel d (vadd wp ws)) n (fun i => 1 * vel d wp i + 1 * vel d ws i) n) by (auto; intros; rewrite vel_vadd by lia; ring).
  rewrite dot_lin, DS. ring.
Qed.

Lemma fluid_traction d m n s q i : dim d -> dot d n n = 1 -> fluid m -> length s = nQt d -> length q = nQt d -> entering d m n (vsub s q) -> (i < d)%nat ->
  traction d s n i - traction d q n i = zp m * (dot d (vel d s) n - dot d (vel d q) n) * n i.
Proof.
  intros D U F Ls Lq E Hi. assert (X := fluid_wave d m n _ D U F (len_vsub _ _ _ Ls Lq) E i Hi). rewrite traction_vsub in X by lia. rewrite X.
  rewrite (dot_ext d (vel d (vsub s q)) n (fun i => 1 * vel d s i + (-1) * vel d q i) n) by (auto; intros; rewrite vel_vsub by lia; ring). rewrite dot_lin. ring.
Qed.

(** pressure waves enter a fluid *)
Lemma fluid_entering d m n v : dim d -> dot d n n = 1 -> fluid m -> entering d m n (mk d (fun i j => zp m * v * delta i j) (fun i => v * n i)).
Proof.
  intros D U F. destruct (fluid_cp m F) as (CP & CP2 & _). assert (SY : forall a b, zp m * v * delta a b = zp m * v * delta b a) by (intros; rewrite delta_sym; reflexivity).
  assert (DV : dot d (fun i => v * n i) n = v) by (transitivity (v * dot d n n); [unfold dot; rewrite <- sum_scal; apply sum_ext; intros; ring|rewrite U; ring]).
  assert (ZN : forall i, nth i (zeros (nQt d)) 0 = 0) by (intros i; unfold zeros; destruct (Nat.lt_ge_cases i (nQt d)); [apply nth_repeat|apply nth_overflow; rewrite repeat_length; auto]).
  assert (ZL : length (zeros (nQt d)) = nQt d) by apply repeat_length. set (w := mk d (fun i j => zp m * v * delta i j) (fun i => v * n i)). assert (WL : length w = nQt d) by apply mk_length, D.
  exists w, (zeros (nQt d)). split; [exact WL|]. split; [exact ZL|]. split; [|split].
  - apply nth_ext with 0 0; [rewrite (len_vadd _ _ (nQt d)); auto|]. intros i Hi. rewrite nth_vadd by lia. rewrite ZN. ring.
  - apply (state_ext d); auto; [apply mk_length, D|unfold vscale; rewrite map_length; exact WL| |].
    + intros i j Hi Hj. rewrite sig_flux, sig_vscale by auto. unfold w. rewrite sig_mk by auto. rewrite (dot_ext d _ n (fun i => v * n i) n) by (auto; intros; apply vel_mk; auto). rewrite DV. destruct F as (_ & M & _). rewrite M, <- CP2. unfold zp. ring.
    + intros i Hi. rewrite vel_flux, vel_vscale by auto. unfold w. rewrite vel_mk by auto. unfold traction. rewrite (sum_ext d _ (fun j => zp m * v * (delta i j * n j))) by (intros; rewrite sig_mk by auto; ring). rewrite sum_scal, sum_delta by auto. unfold zp. field. apply Rgt_not_eq, F.
  - assert (RH : rho m <> 0) by (apply Rgt_not_eq, F). rewrite (fluid_cs m F). apply (state_ext d); auto; [apply mk_length, D|unfold vscale; rewrite map_length; exact ZL| |].
    + intros i j Hi Hj. rewrite sig_flux, sig_vscale by auto. rewrite (dot_ext d _ n (fun i => 0 * n i) n) by (auto; intros; unfold vel; rewrite ZN; ring). unfold strain, vel. rewrite !ZN. replace (dot d (fun i => 0 * n i) n) with 0; [field|]. symmetry. apply sum_zero. intros. ring.
    + intros i Hi. rewrite vel_flux, vel_vscale by auto. unfold traction. rewrite (sum_zero d) by (intros; unfold sig; rewrite ZN; ring). unfold Rdiv. ring.
Qed.

Lemma hydro_traction d q n i : (i < d)%nat -> hydrostatic d q -> traction d q n i = sig d q 0 0 * n i.
Proof. intros Hi H. unfold traction. rewrite (sum_ext d _ (fun j => sig d q 0 0 * (delta i j * n j))) by (intros; rewrite H by auto; ring). rewrite sum_scal, sum_delta by auto. ring. Qed.

Definition fluidV d l r n qL qR : R := wV (zp l) (zp r) (dot d (vel d qL) n) (dot d (vel d qR) n) (sig d qL 0 0) (sig d qR 0 0).
Definition fluidT d l r n qL qR : R := wT (zp l) (zp r) (dot d (vel d qL) n) (dot d (vel d qR) n) (sig d qL 0 0) (sig d qR 0 0).

(** velocity and traction at the interface of two fluids *)
Lemma riemannF_star d l r n qL qR sL sR : dim d -> dot d n n = 1 -> fluid l -> fluid r -> length qL = nQt d -> length qR = nQt d -> hydrostatic d qL -> hydrostatic d qR ->
  riemannF d l r n qL qR sL sR -> dot d (vel d sL) n = fluidV d l r n qL qR /\ forall i, (i < d)%nat -> traction d sL n i = fluidT d l r n qL qR * n i.
Proof.
  intros D U FL FR LqL LqR HL HR (LsL & LsR & EL & ER & TC & VC). assert (U' : dot d (neg n) (neg n) = 1) by (rewrite dot_neg2; auto).
  assert (ZL := fluid_zp l FL). assert (ZR := fluid_zp r FR).
  assert (A : forall i, (i < d)%nat -> traction d sL n i = (sig d qL 0 0 + zp l * (dot d (vel d sL) n - dot d (vel d qL) n)) * n i).
  { intros i Hi. assert (X := fluid_traction d l n sL qL i D U FL LsL LqL EL Hi). rewrite (hydro_traction d qL n i Hi HL) in X. lra. }
  assert (B : forall i, (i < d)%nat -> traction d sL n i = (sig d qR 0 0 - zp r * (dot d (vel d sL) n - dot d (vel d qR) n)) * n i).
  { intros i Hi. assert (X := fluid_traction d r (neg n) sR qR i D U' FR LsR LqR ER Hi). rewrite !traction_neg, !dot_neg, (hydro_traction d qR n i Hi HR), <- TC, <- VC in X by auto. unfold neg in X. lra. }
  assert (K : forall c, dot d (fun i => c * n i) n = c) by (intros c; transitivity (c * dot d n n); [unfold dot; rewrite <- sum_scal; apply sum_ext; intros; ring|rewrite U; ring]).
  assert (AB : sig d qL 0 0 + zp l * (dot d (vel d sL) n - dot d (vel d qL) n) = sig d qR 0 0 - zp r * (dot d (vel d sL) n - dot d (vel d qR) n)).
  { rewrite <- (K (sig d qL 0 0 + _)), <- (K (sig d qR 0 0 - _)). apply dot_ext; auto. intros i Hi. rewrite <- A, <- B by auto. reflexivity. }
  assert (V : dot d (vel d sL) n = fluidV d l r n qL qR).
  { unfold fluidV, wV. apply Rmult_eq_reg_r with (zp l + zp r); [unfold Rdiv; rewrite Rmult_assoc, Rinv_l by lra; lra|lra]. }
  split; [exact V|]. intros i Hi. rewrite A, V by auto. f_equal. unfold fluidV, fluidT, wV, wT. field. lra.
Qed.

Lemma riemannF_exists d l r n qL qR : dim d -> dot d n n = 1 -> fluid l -> fluid r -> length qL = nQt d -> length qR = nQt d -> hydrostatic d qL -> hydrostatic d qR ->
  exists sL sR, riemannF d l r n qL qR sL sR.
Proof.
  intros D U FL FR LqL LqR HL HR. assert (U' : dot d (neg n) (neg n) = 1) by (rewrite dot_neg2; auto). assert (ZL := fluid_zp l FL). assert (ZR := fluid_zp r FR).
  set (V := fluidV d l r n qL qR). set (a := V - dot d (vel d qL) n). set (b := dot d (vel d qR) n - V).
  set (wL := mk d (fun i j => zp l * a * delta i j) (fun i => a * n i)). set (wR := mk d (fun i j => zp r * b * delta i j) (fun i => b * neg n i)).
  assert (LL : length wL = nQt d) by apply mk_length, D. assert (LR : length wR = nQt d) by apply mk_length, D.
  assert (SYl : forall c x y, c * delta x y = c * delta y x) by (intros; rewrite delta_sym; reflexivity).
  assert (K : forall c, dot d (fun i => c * n i) n = c) by (intros c; transitivity (c * dot d n n); [unfold dot; rewrite <- sum_scal; apply sum_ext; intros; ring|rewrite U; ring]).
  exists (vadd qL wL), (vadd qR wR). split; [apply len_vadd; auto|]. split; [apply len_vadd; auto|]. split; [rewrite (vsub_vadd d) by auto; apply fluid_entering; auto|]. split; [rewrite (vsub_vadd d) by auto; apply fluid_entering; auto|].
  assert (T : forall z c v i, (i < d)%nat -> traction d (mk d (fun i j => z * c * delta i j) v) n i = z * c * n i).
  { intros z c v i Hi. unfold traction. rewrite (sum_ext d _ (fun j => z * c * (delta i j * n j))) by (intros; rewrite sig_mk by auto; ring). rewrite sum_scal, sum_delta by auto. ring. }
  assert (ME : sig d qL 0 0 + zp l * a = sig d qR 0 0 + zp r * b) by (unfold a, b, V, fluidV, wV; field; lra).
  split.
  - intros i Hi. rewrite !traction_vadd by lia. unfold wL, wR. rewrite !T by auto. rewrite !hydro_traction by auto. transitivity ((sig d qL 0 0 + zp l * a) * n i); [ring|]. rewrite ME. ring.
  - rewrite (dot_ext d (vel d (vadd qL wL)) n (fun i => 1 * vel d qL i + 1 * (a * n i)) n) by (auto; intros; rewrite vel_vadd by lia; unfold wL; rewrite vel_mk by auto; ring).
    rewrite (dot_ext d (vel d (vadd qR wR)) n (fun i => 1 * vel d qR i + 1 * (- b * n i)) n) by (auto; intros; rewrite vel_vadd by lia; unfold wR; rewrite vel_mk by auto; unfold neg; ring).
    rewrite !dot_lin, !K. unfold a, b. ring.
Qed.

(** a fluid's flux depends on the normal velocity and the traction only *)
Lemma fluid_flux d m n s v t : dim d -> dot d n n = 1 -> fluid m -> dot d (vel d s) n = v -> (forall i, (i < d)%nat -> traction d s n i = t * n i) ->
  flux d m n s = fluxVT d m n (fun i => v * n i) (fun i => t * n i).
Proof.
  intros D U (_ & M & _) V T. apply (state_ext d); try apply mk_length; auto.
  - intros i j Hi Hj. rewrite sig_flux by auto. unfold fluxVT. rewrite sig_mk; auto; [|intros a b; rewrite (delta_sym a b), (strain_sym _ _ a b); reflexivity].
    rewrite M, V. replace (dot d (fun i => v * n i) n) with v; [ring|]. symmetry. transitivity (v * dot d n n); [unfold dot; rewrite <- sum_scal; apply sum_ext; intros; ring|rewrite U; ring].
  - intros i Hi. rewrite vel_flux by auto. unfold fluxVT. rewrite vel_mk by auto. rewrite T by auto. reflexivity.
Qed.

(** ** The generated acoustic solvers *)
Lemma midF2 l r x0 x1 u v y0 y1 y2 u' v' : fluid l -> fluid r ->
  let V0 := wV (zp l) (zp r) u u' x0 y0 in let T0 := wT (zp l) (zp r) u u' x0 y0 in
  vadd (mv 5 5 (flAco2R l r) [x0; x1; 0; u; v]) (mv 5 5 (frAco2R l r) [y0; y1; y2; u'; v']) = [- ((lam l + 2 * mu l) * V0); - (lam l * V0); - (mu l * 0); - (T0 / rho l); - (0 / rho l)].
Proof.
  intros FL FR. cbv zeta. unfold flAco2R, frAco2R, flMidAcoustic2, frMidAcoustic2, sq, two, wV, wT, zp. evm. unfold vadd. cbn [combine map fst snd].
  destruct (fluid_cp l FL) as (PL & AL & BL). destruct (fluid_cp r FR) as (PR & AR & BR). destruct FL as (RL & ML & LL). destruct FR as (RR & MR & LR). rewrite ML, BL, BR, <- AL, <- AR.
  clear AL AR BL BR. generalize dependent (speedP l). generalize dependent (speedP r). generalize dependent (rho l). generalize dependent (rho r). intros. leq. all: try ring. all: field; conds.
Qed.

Lemma solverF2 l r nx ny qL qR : fluid l -> fluid r -> unit2 nx ny -> length qL = 5%nat -> length qR = 5%nat -> hydrostatic 2 qL -> hydrostatic 2 qR ->
  vadd (mv 5 5 (tr2 nx ny) (mv 5 5 (flAco2R l r) (mv 5 5 (tri2 nx ny) qL))) (mv 5 5 (tr2 nx ny) (mv 5 5 (frAco2R l r) (mv 5 5 (tri2 nx ny) qR))) =
  fluxVT 2 l (co2 nx ny) (fun i => fluidV 2 l r (co2 nx ny) qL qR * co2 nx ny i) (fun i => fluidT 2 l r (co2 nx ny) qL qR * co2 nx ny i).
Proof.
  intros FL FR U LL LR HL HR. rewrite <- mv_vadd by (rewrite !len_mv; auto).
  destruct (faceState2 nx ny qL U LL) as (x1 & EL). destruct (faceState2 nx ny qR U LR) as (y1 & ER). cbv zeta in EL, ER. rewrite EL, ER.
  assert (N : forall q, hydrostatic 2 q -> dot 2 (traction 2 q (co2 nx ny)) (co2 nx ny) = sig 2 q 0 0 /\ dot 2 (traction 2 q (co2 nx ny)) (co2 (- ny) nx) = 0).
  { intros q H. assert (X : forall w, dot 2 (traction 2 q (co2 nx ny)) w = sig 2 q 0 0 * dot 2 (co2 nx ny) w) by (intros w; unfold dot; rewrite <- sum_scal; apply sum_ext; intros i Hi; rewrite hydro_traction by auto; ring).
    rewrite !X, unit2_dot by auto. split; [ring|]. cbv [dot sum seq fold_left co2]. ring. }
  destruct (N qL HL) as (A & B). destruct (N qR HR) as (C & E). rewrite A, B, C, E, midF2 by auto. cbv zeta. rewrite faceFlux2 by auto. apply fluxVT_ext; [left; auto| |]; intros i Hi; unfold fluidV, fluidT; ring.
Qed.

(** free surface: the mirrored state has the opposite pressure *)
Lemma freeSolverF2 l nx ny q s : fluid l -> unit2 nx ny -> length q = 5%nat -> hydrostatic 2 q -> freeState 2 l (co2 nx ny) q s ->
  vadd (mv 5 5 (tr2 nx ny) (mv 5 5 (flAco2R l l) (mv 5 5 (tri2 nx ny) q))) (mv 5 5 (tr2 nx ny) (mv 5 5 (frAco2R l l) (mirror [0; 2]%nat (mv 5 5 (tri2 nx ny) q)))) =
  flux 2 l (co2 nx ny) s.
Proof.
  intros FL U LL H (Ls & E & T). assert (D : dim 2) by (left; auto). assert (U1 := unit2_dot nx ny U). assert (Z := fluid_zp l FL). rewrite <- mv_vadd by (rewrite !len_mv; auto).
  destruct (faceState2 nx ny q U LL) as (x1 & EL). cbv zeta in EL. rewrite EL.
  assert (X : forall w, dot 2 (traction 2 q (co2 nx ny)) w = sig 2 q 0 0 * dot 2 (co2 nx ny) w) by (intros w; unfold dot; rewrite <- sum_scal; apply sum_ext; intros i Hi; rewrite hydro_traction by auto; ring).
  rewrite !X, U1. replace (dot 2 (co2 nx ny) (co2 (- ny) nx)) with 0 by (cbv [dot sum seq fold_left co2]; ring).
  cbv [mirror length map seq existsb Nat.eqb orb nth]. rewrite Rmult_0_r, midF2 by auto. cbv zeta. rewrite faceFlux2 by auto.
  assert (V : dot 2 (vel 2 s) (co2 nx ny) = dot 2 (vel 2 q) (co2 nx ny) - sig 2 q 0 0 / zp l).
  { assert (A : forall i, (i < 2)%nat -> 0 = (sig 2 q 0 0 + zp l * (dot 2 (vel 2 s) (co2 nx ny) - dot 2 (vel 2 q) (co2 nx ny))) * co2 nx ny i).
    { intros i Hi. assert (Y := fluid_traction 2 l (co2 nx ny) s q i D U1 FL Ls LL E Hi). rewrite (hydro_traction 2 q _ i Hi H), T in Y by auto. lra. }
    set (c := sig 2 q 0 0 + zp l * (dot 2 (vel 2 s) (co2 nx ny) - dot 2 (vel 2 q) (co2 nx ny))) in *.
    assert (C0 : c = 0).
    { transitivity (c * dot 2 (co2 nx ny) (co2 nx ny)); [rewrite U1; ring|]. unfold dot. rewrite <- sum_scal. apply sum_zero. intros i Hi. rewrite <- Rmult_assoc, <- A by auto. ring. }
    unfold c in C0. apply Rmult_eq_reg_l with (zp l); [|lra]. replace (zp l * (dot 2 (vel 2 q) (co2 nx ny) - sig 2 q 0 0 / zp l)) with (zp l * dot 2 (vel 2 q) (co2 nx ny) - sig 2 q 0 0) by (field; lra). lra. }
  rewrite (fluid_flux 2 l (co2 nx ny) s _ 0 D U1 FL V) by (intros; rewrite T by auto; ring).
  apply fluxVT_ext; [left; auto| |]; intros i Hi; unfold wV, wT; field; lra.
Qed.
