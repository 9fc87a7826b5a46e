(** Proofs about the anelastic fluxes: rate of the strain at a face. *)
From Coq Require Import List Arith Bool Lia Reals Lra Field.
From Verif Require Import Util MatMul ElGen Elastic ElSpec ElWave ElFlux ElTrafo ElMid ElMid2.
Import ListNotations.
Open Scope R_scope.

Definition midA2R (l r : material) : list R * list R := fsMidA2 0 1 Rplus Rmult Rdiv Ropp sqrt (rho l) (rho r) (lam l) (lam r) (mu l) (mu r).
Definition midA3R (l r : material) : list R * list R := fsMidA3 0 1 Rplus Rmult Rdiv Ropp sqrt (rho l) (rho r) (lam l) (lam r) (mu l) (mu r).

Lemma midA3 l r x0 x1 x2 x3 x4 x5 u v w y0 y1 y2 y3 y4 y5 u' v' w' : solid l -> solid r ->
  let V0 := wV (zp l) (zp r) u u' x0 y0 in let V1 := wV (zs l) (zs r) v v' x3 y3 in let V2 := wV (zs l) (zs r) w w' x5 y5 in
  vadd (mv 6 9 (fst (midA3R l r)) [x0; x1; x2; x3; x4; x5; u; v; w]) (mv 6 9 (snd (midA3R l r)) [y0; y1; y2; y3; y4; y5; u'; v'; w']) =
  [- V0; 0; 0; - (V1 / 2); 0; - (V2 / 2)].
Proof.
  intros SL SR. cbv zeta. unfold midA3R, fsMidA3, setEntries, getVelP, getVelS, two, wV, zp, zs. cbn [fst snd fold_left repeat Nat.mul Nat.add upd]. evm. unfold vadd. cbn [combine map fst snd].
  replace (lam l * sqrt ((lam r + (1 + 1) * mu r) / rho r) + lam r * sqrt ((lam l + (1 + 1) * mu l) / rho l) + (1 + 1) * mu l * sqrt ((lam r + (1 + 1) * mu r) / rho r) + (1 + 1) * mu r * sqrt ((lam l + (1 + 1) * mu l) / rho l))
    with ((lam l + (1 + 1) * mu l) * sqrt ((lam r + (1 + 1) * mu r) / rho r) + (lam r + (1 + 1) * mu r) * sqrt ((lam l + (1 + 1) * mu l) / rho l)) by ring.
  speeds l SL. speeds r SR. leq. all: try ring. all: field; conds.
Qed.

Lemma midA2 l r x0 x1 x2 u v y0 y1 y2 u' v' : solid l -> solid r ->
  let V0 := wV (zp l) (zp r) u u' x0 y0 in let V1 := wV (zs l) (zs r) v v' x2 y2 in
  vadd (mv 3 5 (fst (midA2R l r)) [x0; x1; x2; u; v]) (mv 3 5 (snd (midA2R l r)) [y0; y1; y2; u'; v']) = [- V0; 0; - (V1 / 2)].
Proof.
  intros SL SR. cbv zeta. unfold midA2R, fsMidA2, setEntries, getVelP, getVelS, two, wV, zp, zs. cbn [fst snd fold_left repeat Nat.mul Nat.add upd]. evm. unfold vadd. cbn [combine map fst snd].
  speeds l SL. speeds r SR. leq. all: try ring. all: field; conds.
Qed.

Lemma strainFlux_ext d n v v' : dim d -> (forall i, (i < d)%nat -> v i = v' i) -> strainFlux d n v = strainFlux d n v'.
Proof. intros [-> | ->] V; cbv [strainFlux mkT pairs Nat.eqb map fst snd strain]; rewrite !V by lia; reflexivity. Qed.

Lemma faceFluxA3 n s t V0 V1 V2 :
  mv 6 6 (corner 0 9 6 (tr3 n s t)) [- V0; 0; 0; - (V1 / 2); 0; - (V2 / 2)] = strainFlux 3 (co3 n) (fun i => V0 * co3 n i + (V1 * co3 s i + V2 * co3 t i)).
Proof.
  destruct n as ((nx & ny) & nz). destruct s as ((sx & sy) & sz). destruct t as ((tx & ty) & tz). unfold corner, trafo3, sq, two. cbv [flat_map app]. evm.
  cbv [strainFlux mkT pairs Nat.eqb map app seq fst snd co3 delta strain]. leq; field.
Qed.
Lemma faceFluxA2 nx ny V0 V1 :
  mv 3 3 (corner 0 5 3 (tr2 nx ny)) [- V0; 0; - (V1 / 2)] = strainFlux 2 (co2 nx ny) (fun i => V0 * co2 nx ny i + V1 * co2 (- ny) nx i).
Proof.
  unfold corner, trafo2, sq, two. cbv [flat_map app]. evm. cbv [strainFlux mkT pairs Nat.eqb map app seq fst snd co2 delta strain]. leq; field.
Qed.

Lemma solverA3 l r n s t qL qR : solid l -> solid r -> orthonormal n s t -> length qL = 9%nat -> length qR = 9%nat ->
  vadd (mv 6 6 (corner 0 9 6 (tr3 n s t)) (mv 6 9 (fst (midA3R l r)) (mv 9 9 (tri3 n s t) qL))) (mv 6 6 (corner 0 9 6 (tr3 n s t)) (mv 6 9 (snd (midA3R l r)) (mv 9 9 (tri3 n s t) qR))) =
  strainFlux 3 (co3 n) (starV 3 l r (co3 n) qL qR).
Proof.
  intros SL SR O LL LR. rewrite <- mv_vadd by (rewrite !len_mv; auto).
  destruct (faceState3 n s t qL O LL) as (x1 & x2 & x4 & EL). destruct (faceState3 n s t qR O LR) as (y1 & y2 & y4 & ER). cbv zeta in EL, ER. rewrite EL, ER, midA3 by auto.
  cbv zeta. rewrite faceFluxA3. apply strainFlux_ext; [right; auto|].
  intros i Hi. unfold starV. cbv zeta. rewrite !(perp_frame3 n s t) by auto. unfold par, wV, Rdiv. ring.
Qed.
Lemma freeSolverA3 l n s t q : solid l -> orthonormal n s t -> length q = 9%nat ->
  vadd (mv 6 6 (corner 0 9 6 (tr3 n s t)) (mv 6 9 (fst (midA3R l l)) (mv 9 9 (tri3 n s t) q))) (mv 6 6 (corner 0 9 6 (tr3 n s t)) (mv 6 9 (snd (midA3R l l)) (mirror [0; 3; 5]%nat (mv 9 9 (tri3 n s t) q)))) =
  strainFlux 3 (co3 n) (freeV 3 l (co3 n) q).
Proof.
  intros SL O LL. rewrite <- mv_vadd by (rewrite !len_mv; auto).
  destruct (faceState3 n s t q O LL) as (x1 & x2 & x4 & EL). cbv zeta in EL. rewrite EL.
  cbv [mirror length map seq existsb Nat.eqb orb nth]. rewrite midA3 by auto.
  cbv zeta. rewrite faceFluxA3. assert (Z := zp_pos l SL). assert (Y := zs_pos l SL). apply strainFlux_ext; [right; auto|].
  intros i Hi. unfold freeV. rewrite <- (par_perp 3 (co3 n) (vel 3 q) i). rewrite !(perp_frame3 n s t) by auto. unfold par, wV. field. split; lra.
Qed.
Lemma solverA2 l r nx ny qL qR : solid l -> solid r -> unit2 nx ny -> length qL = 5%nat -> length qR = 5%nat ->
  vadd (mv 3 3 (corner 0 5 3 (tr2 nx ny)) (mv 3 5 (fst (midA2R l r)) (mv 5 5 (tri2 nx ny) qL))) (mv 3 3 (corner 0 5 3 (tr2 nx ny)) (mv 3 5 (snd (midA2R l r)) (mv 5 5 (tri2 nx ny) qR))) =
  strainFlux 2 (co2 nx ny) (starV 2 l r (co2 nx ny) qL qR).
Proof.
  intros SL SR U LL LR. rewrite <- mv_vadd by (rewrite !len_mv; auto).
  destruct (faceState2 nx ny qL U LL) as (x1 & EL). destruct (faceState2 nx ny qR U LR) as (y1 & ER). cbv zeta in EL, ER. rewrite EL, ER, midA2 by auto.
  cbv zeta. rewrite faceFluxA2. apply strainFlux_ext; [left; auto|].
  intros i Hi. unfold starV. cbv zeta. rewrite !perp_frame2 by auto. unfold par, wV, Rdiv. ring.
Qed.
Lemma freeSolverA2 l nx ny q : solid l -> unit2 nx ny -> length q = 5%nat ->
  vadd (mv 3 3 (corner 0 5 3 (tr2 nx ny)) (mv 3 5 (fst (midA2R l l)) (mv 5 5 (tri2 nx ny) q))) (mv 3 3 (corner 0 5 3 (tr2 nx ny)) (mv 3 5 (snd (midA2R l l)) (mirror [0; 2]%nat (mv 5 5 (tri2 nx ny) q)))) =
  strainFlux 2 (co2 nx ny) (freeV 2 l (co2 nx ny) q).
Proof.
  intros SL U LL. rewrite <- mv_vadd by (rewrite !len_mv; auto).
  destruct (faceState2 nx ny q U LL) as (x1 & EL). cbv zeta in EL. rewrite EL.
  cbv [mirror length map seq existsb Nat.eqb orb nth]. rewrite midA2 by auto.
  cbv zeta. rewrite faceFluxA2. assert (Z := zp_pos l SL). assert (Y := zs_pos l SL). apply strainFlux_ext; [left; auto|].
  intros i Hi. unfold freeV. rewrite <- (par_perp 2 (co2 nx ny) (vel 2 q) i). rewrite !perp_frame2 by auto. unfold par, wV. field. split; lra.
Qed.
