(** Proofs about the middle states and fluxes of internal boundaries. *)
From Coq Require Import List Arith Bool Lia Reals Lra Field.
From Verif Require Import Util MatMul ElGen Elastic ElSpec ElWave ElFlux ElTrafo ElMid ElMid2 Fault.
Import ListNotations.
Open Scope R_scope.

Definition jumpL3R (l r : material) : list R := msJumpL3 0 1 Rplus Rminus Rmult Rdiv Ropp sqrt (rho l) (rho r) (lam l) (lam r) (mu l) (mu r).
Definition jumpR3R (l r : material) : list R := msJumpR3 0 1 Rplus Rmult Rdiv Ropp sqrt (rho l) (rho r) (lam l) (lam r) (mu l) (mu r).
Definition jumpL2R (l r : material) : list R := msJumpL2 0 1 Rplus Rmult Rdiv sqrt (rho l) (rho r) (lam l) (lam r) (mu l) (mu r).
Definition jumpR2R (l r : material) : list R := msJumpR2 0 1 Rplus Rmult Rdiv Ropp sqrt (rho l) (rho r) (lam l) (lam r) (mu l) (mu r).

(** the shape of a middle state: velocity and traction are those of the interface, the other entries do not matter *)
Definition msShape3 (l r : material) (x y ms : list R) : Prop :=
  let a i := nth i x 0 in let b i := nth i y 0 in
  ms = [wT (zp l) (zp r) (a 6) (b 6) (a 0) (b 0); nth 1 ms 0%R; nth 2 ms 0%R; wT (zs l) (zs r) (a 7) (b 7) (a 3) (b 3); nth 4 ms 0%R; wT (zs l) (zs r) (a 8) (b 8) (a 5) (b 5);
        wV (zp l) (zp r) (a 6) (b 6) (a 0) (b 0); wV (zs l) (zs r) (a 7) (b 7) (a 3) (b 3); wV (zs l) (zs r) (a 8) (b 8) (a 5) (b 5)]%nat.
Definition msShape2 (l r : material) (x y ms : list R) : Prop :=
  let a i := nth i x 0 in let b i := nth i y 0 in
  ms = [wT (zp l) (zp r) (a 3) (b 3) (a 0) (b 0); nth 1 ms 0%R; wT (zs l) (zs r) (a 4) (b 4) (a 2) (b 2); wV (zp l) (zp r) (a 3) (b 3) (a 0) (b 0); wV (zs l) (zs r) (a 4) (b 4) (a 2) (b 2)]%nat.

(** the model's sum of the left state and the jump *)
Definition addJump (n : nat) (j x y : list R) : list R :=
  map (fun i => nth i x 0 + nth i (mv n n j (map (fun i => nth i y 0 - nth i x 0) (seq 0 n))) 0) (seq 0 n).

Lemma jumpL3 l r x y : solid l -> solid r -> length x = 9%nat -> length y = 9%nat -> msShape3 l r x y (addJump 9 (jumpL3R l r) x y).
Proof.
  intros SL SR LX LY. q9 x LX. q9 y LY. cbv [msShape3 addJump]. unfold jumpL3R, msJumpL3, sq, two, wV, wT, zp, zs. evm.
  speeds l SL. speeds r SR. leq. all: try reflexivity. all: field; conds.
Qed.
Lemma jumpR3 l r x y : solid l -> solid r -> length x = 9%nat -> length y = 9%nat -> msShape3 l r x y (addJump 9 (scaleM Rmult (- (1)) (jumpR3R l r)) y x).
Proof.
  intros SL SR LX LY. q9 x LX. q9 y LY. cbv [msShape3 addJump scaleM]. unfold jumpR3R, msJumpR3, sq, two, wV, wT, zp, zs. evm.
  speeds l SL. speeds r SR. leq. all: try reflexivity. all: field; conds.
Qed.
Lemma jumpL2 l r x y : solid l -> solid r -> length x = 5%nat -> length y = 5%nat -> msShape2 l r x y (addJump 5 (jumpL2R l r) x y).
Proof.
  intros SL SR LX LY. q5 x LX. q5 y LY. cbv [msShape2 addJump]. unfold jumpL2R, msJumpL2, sq, two, wV, wT, zp, zs. evm.
  assert (GL : forall s, lam r * s + (1 + 1) * mu r * s = (lam r + (1 + 1) * mu r) * s) by (intros; ring). rewrite !GL. clear GL.
  speeds l SL. speeds r SR. leq. all: try reflexivity. all: field; conds.
Qed.
Lemma jumpR2 l r x y : solid l -> solid r -> length x = 5%nat -> length y = 5%nat -> msShape2 l r x y (addJump 5 (scaleM Rmult (- (1)) (jumpR2R l r)) y x).
Proof.
  intros SL SR LX LY. q5 x LX. q5 y LY. cbv [msShape2 addJump scaleM]. unfold jumpR2R, msJumpR2, sq, two, wV, wT, zp, zs. evm.
  assert (GL : forall s, lam r * s + (1 + 1) * mu r * s = (lam r + (1 + 1) * mu r) * s) by (intros; ring). rewrite !GL. clear GL.
  speeds l SL. speeds r SR. leq. all: try reflexivity. all: field; conds.
Qed.

(** ** Fluxes of middle states *)
Definition msFlux3R (n s t : R * R * R) (m : material) : list R :=
  msFlux3 0 1 Rplus Rminus Rmult Rdiv Ropp (co3 n 0) (co3 n 1) (co3 n 2) (co3 s 0) (co3 s 1) (co3 s 2) (co3 t 0) (co3 t 1) (co3 t 2) (rho m) (lam m) (mu m).
Definition msFlux2R (nx ny : R) (m : material) : list R := msFlux2 0 1 Rplus Rminus Rmult Rdiv Ropp nx ny (rho m) (lam m) (mu m).

(** velocity or traction with components c0, c1, c2 in a frame *)
Definition inFrame3 (n s t : R * R * R) (c0 c1 c2 : R) (i : nat) : R := c0 * co3 n i + (c1 * co3 s i + c2 * co3 t i).
Definition inFrame2 (nx ny c0 c1 : R) (i : nat) : R := c0 * co2 nx ny i + c1 * co2 (- ny) nx i.

Lemma msFlux3_ok n s t m z0 z1 z2 z3 z4 z5 z6 z7 z8 : orthonormal n s t -> 0 < rho m ->
  mv 9 9 (msFlux3R n s t m) [z0; z1; z2; z3; z4; z5; z6; z7; z8] = fluxVT 3 m (co3 n) (inFrame3 n s t z6 z7 z8) (inFrame3 n s t z0 z3 z5).
Proof.
  intros O P. unfold inFrame3. rewrite <- (faceFlux3 m n s t z6 z7 z8 z0 z3 z5 O).
  destruct n as ((nx & ny) & nz). destruct s as ((sx & sy) & sz). destruct t as ((tx & ty) & tz). cbn [co3 fst snd].
  unfold msFlux3R, msFlux3, trafo3, sq, two. cbn [co3 fst snd]. evm. leq; field; lra.
Qed.
Lemma msFlux2_ok nx ny m z0 z1 z2 z3 z4 : unit2 nx ny -> 0 < rho m ->
  mv 5 5 (msFlux2R nx ny m) [z0; z1; z2; z3; z4] = fluxVT 2 m (co2 nx ny) (inFrame2 nx ny z3 z4) (inFrame2 nx ny z0 z2).
Proof.
  intros U P. unfold inFrame2. rewrite <- (faceFlux2 m nx ny z3 z4 z0 z2 U). unfold unit2 in U.
  unfold msFlux2R, msFlux2, trafo2, sq, two. evm. assert (Y : nx * nx = 1 - ny * ny) by lra. leq; field_simplify_eq; try lra; try (ring [Y]).
Qed.
