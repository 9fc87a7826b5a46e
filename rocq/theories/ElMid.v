(** Proofs about the contributions of both sides of a face to the flux. *)
From Coq Require Import List Arith Bool Lia Reals Lra Field.
From Verif Require Import Util MatMul ElGen Elastic ElSpec ElWave ElFlux ElTrafo.
Import ListNotations.
Open Scope R_scope.

Definition flMid3R (l r : material) : list R := flMid3 0 1 Rplus Rminus Rmult Rdiv Ropp sqrt (rho l) (rho r) (lam l) (lam r) (mu l) (mu r).
Definition frMid3R (l r : material) : list R := frMid3 0 1 Rplus Rminus Rmult Rdiv Ropp sqrt (rho l) (rho r) (lam l) (lam r) (mu l) (mu r).

(** velocity and traction at the interface for one component: impedances, left and right velocity, left and right traction *)
Definition wV (zL zR vL vR tL tR : R) : R := (zL * vL + zR * vR + tR - tL) / (zL + zR).
Definition wT (zL zR vL vR tL tR : R) : R := (zR * tL + zL * tR + zL * zR * (vR - vL)) / (zL + zR).

(** sqrt terms and Lame parameters by density and speeds *)
Lemma speed_subst m : solid m -> sqrt ((lam m + (1 + 1) * mu m) / rho m) = speedP m /\ sqrt (mu m / rho m) = speedS m /\
  lam m + (1 + 1) * mu m = speedP m * speedP m * rho m /\ lam m + 2 * mu m = speedP m * speedP m * rho m /\ - lam m - (1 + 1) * mu m = - (speedP m * speedP m * rho m) /\
  mu m = speedS m * speedS m * rho m /\ 0 < speedP m /\ 0 < speedS m /\ 0 < rho m.
Proof.
  intros S. destruct (solid_cp m S) as (A & B & C). destruct (solid_cs m S) as (E & F).
  split; [unfold speedP; replace (1 + 1) with 2 by ring; reflexivity|]. split; [reflexivity|]. split; [lra|]. split; [lra|]. split; [lra|]. split; [lra|]. split; [lra|]. split; [lra|]. apply S.
Qed.

Ltac speeds l S := let A := fresh in let B := fresh in let C := fresh in let C' := fresh in let C'' := fresh in let E := fresh in let P := fresh "CP" in let Q := fresh "CS" in let R := fresh "RH" in
  destruct (speed_subst l S) as (A & B & C & C' & C'' & E & P & Q & R); rewrite ?A, ?B; rewrite ?C, ?C', ?C''; rewrite ?E; clear A B C C' C'' E;
  generalize dependent (speedP l); generalize dependent (speedS l); generalize dependent (rho l); generalize dependent (lam l); intros.

Ltac posi := match goal with
  | |- _ <> 0 => apply Rgt_not_eq, Rlt_gt; posi
  | |- 0 < _ + _ => apply Rplus_lt_0_compat; posi
  | |- 0 < _ * _ => apply Rmult_lt_0_compat; posi
  | |- 0 < _ / _ => apply Rdiv_lt_0_compat; posi
  | |- _ => lra end.
Ltac conds := repeat split; posi.

Lemma mid3 l r x0 x1 x2 x3 x4 x5 u v w y0 y1 y2 y3 y4 y5 u' v' w' : solid l -> solid r ->
  let V0 := wV (zp l) (zp r) u u' x0 y0 in let V1 := wV (zs l) (zs r) v v' x3 y3 in let V2 := wV (zs l) (zs r) w w' x5 y5 in
  let T0 := wT (zp l) (zp r) u u' x0 y0 in let T1 := wT (zs l) (zs r) v v' x3 y3 in let T2 := wT (zs l) (zs r) w w' x5 y5 in
  vadd (mv 9 9 (flMid3R l r) [x0; x1; x2; x3; x4; x5; u; v; w]) (mv 9 9 (frMid3R l r) [y0; y1; y2; y3; y4; y5; u'; v'; w']) =
  [- ((lam l + 2 * mu l) * V0); - (lam l * V0); - (lam l * V0); - (mu l * V1); 0; - (mu l * V2); - (T0 / rho l); - (T1 / rho l); - (T2 / rho l)].
Proof.
  intros SL SR. cbv zeta. unfold flMid3R, frMid3R, flMid3, frMid3, sq, two, wV, wT, zp, zs. evm. unfold vadd. cbn [combine map fst snd].
  speeds l SL. speeds r SR. leq. all: try ring. all: field; conds.
Qed.

(** ** Three dimensions *)
Lemma perp_frame3 n s t v i : orthonormal n s t -> (i < 3)%nat ->
  perp 3 (co3 n) v i = dot 3 v (co3 s) * co3 s i + dot 3 v (co3 t) * co3 t i.
Proof.
  destruct n as ((nx & ny) & nz). destruct s as ((sx & sy) & sz). destruct t as ((tx & ty) & tz). intros O Hi.
  destruct (ortho_inverse _ _ _ _ _ _ _ _ _ O) as (_ & A & B & C & D & E & F). unfold perp, dot, sum.
  destruct i as [|[|[|]]]; try lia; cbn [co3 fst snd seq fold_left].
  - assert (X : v 0%nat - (0 + v 0%nat * nx + v 1%nat * ny + v 2%nat * nz) * nx - ((0 + v 0%nat * sx + v 1%nat * sy + v 2%nat * sz) * sx + (0 + v 0%nat * tx + v 1%nat * ty + v 2%nat * tz) * tx) = v 0%nat * (1 - (nx * nx + sx * sx + tx * tx)) + v 1%nat * (0 - (nx * ny + sx * sy + tx * ty)) + v 2%nat * (0 - (nx * nz + sx * sz + tx * tz))) by ring. rewrite ?A, ?B, ?C, ?D, ?E, ?F in X. lra.
  - assert (X : v 1%nat - (0 + v 0%nat * nx + v 1%nat * ny + v 2%nat * nz) * ny - ((0 + v 0%nat * sx + v 1%nat * sy + v 2%nat * sz) * sy + (0 + v 0%nat * tx + v 1%nat * ty + v 2%nat * tz) * ty) = v 0%nat * (0 - (nx * ny + sx * sy + tx * ty)) + v 1%nat * (1 - (ny * ny + sy * sy + ty * ty)) + v 2%nat * (0 - (ny * nz + sy * sz + ty * tz))) by ring. rewrite ?A, ?B, ?C, ?D, ?E, ?F in X. lra.
  - assert (X : v 2%nat - (0 + v 0%nat * nx + v 1%nat * ny + v 2%nat * nz) * nz - ((0 + v 0%nat * sx + v 1%nat * sy + v 2%nat * sz) * sz + (0 + v 0%nat * tx + v 1%nat * ty + v 2%nat * tz) * tz) = v 0%nat * (0 - (nx * nz + sx * sz + tx * tz)) + v 1%nat * (0 - (ny * nz + sy * sz + ty * tz)) + v 2%nat * (1 - (nz * nz + sz * sz + tz * tz))) by ring. rewrite ?A, ?B, ?C, ?D, ?E, ?F in X. lra.
Qed.

Lemma ortho_unit3 n s t : orthonormal n s t -> dot 3 (co3 n) (co3 n) = 1.
Proof. destruct n as ((nx & ny) & nz). intros (A & _). cbn [fst snd] in A. cbv [dot sum seq fold_left co3 fst snd]. lra. Qed.

(** trafo of a vector as in the model's functions *)
Notation tr3 n s t := (trafo3R (co3 n 0) (co3 n 1) (co3 n 2) (co3 s 0) (co3 s 1) (co3 s 2) (co3 t 0) (co3 t 1) (co3 t 2)).
Notation tri3 n s t := (trafoInv3R (co3 n 0) (co3 n 1) (co3 n 2) (co3 s 0) (co3 s 1) (co3 s 2) (co3 t 0) (co3 t 1) (co3 t 2)).

Lemma faceState3 n s t q : orthonormal n s t -> length q = 9%nat -> exists x1 x2 x4,
  let tq := traction 3 q (co3 n) in let vq := vel 3 q in
  mv 9 9 (tri3 n s t) q = [dot 3 tq (co3 n); x1; x2; dot 3 tq (co3 s); x4; dot 3 tq (co3 t); dot 3 vq (co3 n); dot 3 vq (co3 s); dot 3 vq (co3 t)].
Proof.
  destruct n as ((nx & ny) & nz). destruct s as ((sx & sy) & sz). destruct t as ((tx & ty) & tz). intros O L. cbn [co3 fst snd].
  destruct (ortho_inverse _ _ _ _ _ _ _ _ _ O) as (-> & _). q9 q L.
  do 3 eexists. cbv zeta. unfold trafo3, sq, two. evm.
  cbv [dot sum seq fold_left traction sig vel posOf pairs nSt length Nat.eqb andb orb nth Nat.add co3 fst snd].
  leq; try reflexivity; ring.
Qed.

Lemma faceFlux3 m n s t V0 V1 V2 T0 T1 T2 : orthonormal n s t ->
  mv 9 9 (tr3 n s t) [- ((lam m + 2 * mu m) * V0); - (lam m * V0); - (lam m * V0); - (mu m * V1); 0; - (mu m * V2); - (T0 / rho m); - (T1 / rho m); - (T2 / rho m)] =
  fluxVT 3 m (co3 n) (fun i => V0 * co3 n i + (V1 * co3 s i + V2 * co3 t i)) (fun i => T0 * co3 n i + (T1 * co3 s i + T2 * co3 t i)).
Proof.
  destruct n as ((nx & ny) & nz). destruct s as ((sx & sy) & sz). destruct t as ((tx & ty) & tz). intros O. cbn [co3 fst snd].
  destruct (ortho_inverse _ _ _ _ _ _ _ _ _ O) as (_ & A & B & C & D & E & F). cbv [orthonormal fst snd] in O. destruct O as (N & _ & _ & NS & NT & _).
  assert (DV : dot 3 (fun i => V0 * co3 (nx, ny, nz) i + (V1 * co3 (sx, sy, sz) i + V2 * co3 (tx, ty, tz) i)) (co3 (nx, ny, nz)) = V0).
  { cbv [dot sum seq fold_left co3 fst snd]. transitivity (V0 * (nx * nx + ny * ny + nz * nz) + V1 * (nx * sx + ny * sy + nz * sz) + V2 * (nx * tx + ny * ty + nz * tz)); [ring|]. rewrite N, NS, NT. ring. }
  unfold fluxVT. rewrite DV. clear DV. unfold trafo3, sq, two. evm.
  cbv [mk mkT pairs Nat.eqb map app seq fst snd co3 delta strain]. leq; try (unfold Rdiv; ring).
  - transitivity (- (lam m * V0 * (nx * nx + sx * sx + tx * tx) + 2 * mu m * (V0 * nx * nx + V1 * sx * nx + V2 * tx * nx))); [ring|]. rewrite A. field.
  - transitivity (- (lam m * V0 * (ny * ny + sy * sy + ty * ty) + 2 * mu m * (V0 * ny * ny + V1 * sy * ny + V2 * ty * ny))); [ring|]. rewrite B. field.
  - transitivity (- (lam m * V0 * (nz * nz + sz * sz + tz * tz) + 2 * mu m * (V0 * nz * nz + V1 * sz * nz + V2 * tz * nz))); [ring|]. rewrite C. field.
  - transitivity (- (lam m * V0 * (nx * ny + sx * sy + tx * ty) + mu m * (2 * V0 * nx * ny + V1 * (sx * ny + sy * nx) + V2 * (tx * ny + ty * nx)))); [ring|]. rewrite D. field.
  - transitivity (- (lam m * V0 * (ny * nz + sy * sz + ty * tz) + mu m * (2 * V0 * ny * nz + V1 * (sy * nz + sz * ny) + V2 * (ty * nz + tz * ny)))); [ring|]. rewrite E. field.
  - transitivity (- (lam m * V0 * (nx * nz + sx * sz + tx * tz) + mu m * (2 * V0 * nx * nz + V1 * (sx * nz + sz * nx) + V2 * (tx * nz + tz * nx)))); [ring|]. rewrite F. field.
Qed.

Lemma fluxVT_ext d m n v t v' t' : dim d -> (forall i, (i < d)%nat -> v i = v' i) -> (forall i, (i < d)%nat -> t i = t' i) -> fluxVT d m n v t = fluxVT d m n v' t'.
Proof.
  intros D V T. assert (SY : forall v a b, - (lam m * dot d v n * delta a b + 2 * mu m * strain v n a b) = - (lam m * dot d v n * delta b a + 2 * mu m * strain v n b a)) by (intros; rewrite (delta_sym a b), (strain_sym _ _ a b); reflexivity).
  apply (state_ext d); try apply mk_length; auto.
  - intros i j Hi Hj. unfold fluxVT. rewrite !sig_mk by auto. rewrite (dot_ext d v n v' n) by auto. unfold strain. rewrite !V by auto. reflexivity.
  - intros i Hi. unfold fluxVT. rewrite !vel_mk by auto. rewrite T by auto. reflexivity.
Qed.

Lemma mv_vadd m n a q q' : length q = length q' -> mv m n a (vadd q q') = vadd (mv m n a q) (mv m n a q').
Proof.
  intros L. apply nth_ext with 0 0; [rewrite (len_vadd _ _ m); rewrite ?len_mv; auto|]. rewrite len_mv. intros i Hi. rewrite nth_vadd by (rewrite !len_mv; auto). rewrite !nth_mv by auto.
  rewrite <- sum_add. apply sum_ext. intros j Hj. rewrite nth_vadd by auto. ring.
Qed.

Lemma solver3 l r n s t qL qR : solid l -> solid r -> orthonormal n s t -> length qL = 9%nat -> length qR = 9%nat ->
  vadd (mv 9 9 (tr3 n s t) (mv 9 9 (flMid3R l r) (mv 9 9 (tri3 n s t) qL))) (mv 9 9 (tr3 n s t) (mv 9 9 (frMid3R l r) (mv 9 9 (tri3 n s t) qR))) =
  fluxVT 3 l (co3 n) (starV 3 l r (co3 n) qL qR) (starT 3 l r (co3 n) qL qR).
Proof.
  intros SL SR O LL LR. rewrite <- mv_vadd by (rewrite !len_mv; auto).
  destruct (faceState3 n s t qL O LL) as (x1 & x2 & x4 & EL). destruct (faceState3 n s t qR O LR) as (y1 & y2 & y4 & ER). cbv zeta in EL, ER. rewrite EL, ER, mid3 by auto.
  cbv zeta. rewrite faceFlux3 by auto. apply fluxVT_ext; [right; auto| |].
  - intros i Hi. unfold starV. cbv zeta. rewrite !(perp_frame3 n s t) by auto. unfold par, wV, Rdiv. ring.
  - intros i Hi. unfold starT. cbv zeta. rewrite !(perp_frame3 n s t) by auto. unfold par, wT, Rdiv. ring.
Qed.

Lemma freeSolver3 l n s t q : solid l -> orthonormal n s t -> length q = 9%nat ->
  vadd (mv 9 9 (tr3 n s t) (mv 9 9 (flMid3R l l) (mv 9 9 (tri3 n s t) q))) (mv 9 9 (tr3 n s t) (mv 9 9 (frMid3R l l) (mirror [0; 3; 5]%nat (mv 9 9 (tri3 n s t) q)))) =
  fluxVT 3 l (co3 n) (freeV 3 l (co3 n) q) (fun _ => 0).
Proof.
  intros SL O LL. rewrite <- mv_vadd by (rewrite !len_mv; auto).
  destruct (faceState3 n s t q O LL) as (x1 & x2 & x4 & EL). cbv zeta in EL. rewrite EL.
  cbv [mirror length map seq existsb Nat.eqb orb nth]. rewrite mid3 by auto.
  cbv zeta. rewrite faceFlux3 by auto. assert (Z := zp_pos l SL). assert (Y := zs_pos l SL). apply fluxVT_ext; [right; auto| |].
  - intros i Hi. unfold freeV. rewrite <- (par_perp 3 (co3 n) (vel 3 q) i). rewrite !(perp_frame3 n s t) by auto. unfold par, wV. field. split; lra.
  - intros i Hi. unfold wT. field. lra.
Qed.
