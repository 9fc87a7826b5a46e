(** Proofs about the contributions of both sides of a face to the flux: two dimensions, fluids, anelastic fluxes. *)
From Coq Require Import List Arith Bool Lia Reals Lra Field.
From Verif Require Import Util MatMul ElGen Elastic ElSpec ElWave ElFlux ElTrafo ElMid.
Import ListNotations.
Open Scope R_scope.

Definition flMid2R (l r : material) : list R := flMidElastic2 0 1 Rplus Rmult Rdiv Ropp sqrt pow15R (rho l) (rho r) (lam l) (lam r) (mu l) (mu r).
Definition frMid2R (l r : material) : list R := frMidElastic2 0 1 Rplus Rmult Rdiv Ropp sqrt pow15R (rho l) (rho r) (lam l) (lam r) (mu l) (mu r).
Definition flAco2R (l r : material) : list R := flMidAcoustic2 0 1 Rplus Rmult Rdiv Ropp sqrt (rho l) (rho r) (lam l) (lam r) (mu l) (mu r).
Definition frAco2R (l r : material) : list R := frMidAcoustic2 0 Rplus Rmult Rdiv Ropp sqrt (rho l) (rho r) (lam l) (lam r) (mu l) (mu r).

(** ** Elastic, two dimensions *)
Lemma mid2 l r x0 x1 x2 u v y0 y1 y2 u' v' : solid l -> solid r ->
  let V0 := wV (zp l) (zp r) u u' x0 y0 in let V1 := wV (zs l) (zs r) v v' x2 y2 in
  let T0 := wT (zp l) (zp r) u u' x0 y0 in let T1 := wT (zs l) (zs r) v v' x2 y2 in
  vadd (mv 5 5 (flMid2R l r) [x0; x1; x2; u; v]) (mv 5 5 (frMid2R l r) [y0; y1; y2; u'; v']) =
  [- ((lam l + 2 * mu l) * V0); - (lam l * V0); - (mu l * V1); - (T0 / rho l); - (T1 / rho l)].
Proof.
  intros SL SR. cbv zeta. unfold flMid2R, frMid2R, flMidElastic2, frMidElastic2, pow15R, sq, two, wV, wT, zp, zs. evm. unfold vadd. cbn [combine map fst snd].
  assert (XL : lam l = speedP l * speedP l * rho l - (1 + 1) * mu l) by (destruct (solid_cp l SL) as (_ & E & _); lra).
  assert (XR : forall x, lam r * x + (1 + 1) * mu r * x = (lam r + (1 + 1) * mu r) * x) by (intros; ring).
  rewrite !XR. speeds l SL. speeds r SR. clear XL XR. leq. all: try ring. all: field; conds.
Qed.

(** ** Two dimensions: frame n, s = (- ny, nx) *)
Notation tr2 nx ny := (trafo2R nx ny).
Notation tri2 nx ny := (trafoInv2R nx ny).

Lemma unit2_dot nx ny : unit2 nx ny -> dot 2 (co2 nx ny) (co2 nx ny) = 1.
Proof. unfold unit2. intros U. cbv [dot sum seq fold_left co2]. lra. Qed.

Lemma trafo2_inverse nx ny q : unit2 nx ny -> length q = 5%nat -> mv 5 5 (tr2 nx ny) (mv 5 5 (tri2 nx ny) q) = q /\ mv 5 5 (tri2 nx ny) (mv 5 5 (tr2 nx ny) q) = q.
Proof.
  unfold unit2. intros U L. q5 q L. assert (Y : ny * ny = 1 - nx * nx) by lra. unfold trafo2, trafoInv2, sq, two.
  split; evm; leq; ring [Y].
Qed.

Lemma trafo2_rotates nx ny q : unit2 nx ny -> length q = 5%nat -> let q' := mv 5 5 (tr2 nx ny) q in
  (forall i j, (i < 2)%nat -> (j < 2)%nat -> sig 2 q' i j = sum 2 (fun k => sum 2 (fun l => frame2 nx ny i k * frame2 nx ny j l * sig 2 q k l))) /\
  (forall i, (i < 2)%nat -> vel 2 q' i = sum 2 (fun k => frame2 nx ny i k * vel 2 q k)).
Proof.
  unfold unit2. intros U L. q5 q L. cbv zeta. split.
  - intros i j Hi Hj. destruct i as [|[|]]; try lia; destruct j as [|[|]]; try lia; cbv [sig vel posOf pairs nSt length Nat.eqb andb orb co2 fst snd frame2 trafo2 sq two mv sum map seq fold_left nth Nat.mul Nat.add]; ring.
  - intros i Hi. destruct i as [|[|]]; try lia; cbv [sig vel posOf pairs nSt length Nat.eqb andb orb co2 fst snd frame2 trafo2 sq two mv sum map seq fold_left nth Nat.mul Nat.add]; ring.
Qed.

Lemma perp_frame2 nx ny v i : unit2 nx ny -> (i < 2)%nat -> perp 2 (co2 nx ny) v i = dot 2 v (co2 (- ny) nx) * co2 (- ny) nx i.
Proof.
  unfold unit2. intros U Hi. assert (Y : ny * ny = 1 - nx * nx) by lra. unfold perp, dot, sum. destruct i as [|[|]]; try lia; cbn [co2 seq fold_left]; ring [Y].
Qed.

Lemma faceState2 nx ny q : unit2 nx ny -> length q = 5%nat -> exists x1,
  let tq := traction 2 q (co2 nx ny) in let vq := vel 2 q in
  mv 5 5 (tri2 nx ny) q = [dot 2 tq (co2 nx ny); x1; dot 2 tq (co2 (- ny) nx); dot 2 vq (co2 nx ny); dot 2 vq (co2 (- ny) nx)].
Proof.
  unfold unit2. intros U L. q5 q L. eexists. cbv zeta. unfold trafoInv2, sq, two. evm.
  cbv [dot sum seq fold_left traction sig vel posOf pairs nSt length Nat.eqb andb orb nth Nat.add co2 fst snd].
  assert (Y : ny * ny = 1 - nx * nx) by lra. leq; try reflexivity; ring [Y].
Qed.

Lemma faceFlux2 m nx ny V0 V1 T0 T1 : unit2 nx ny ->
  mv 5 5 (tr2 nx ny) [- ((lam m + 2 * mu m) * V0); - (lam m * V0); - (mu m * V1); - (T0 / rho m); - (T1 / rho m)] =
  fluxVT 2 m (co2 nx ny) (fun i => V0 * co2 nx ny i + V1 * co2 (- ny) nx i) (fun i => T0 * co2 nx ny i + T1 * co2 (- ny) nx i).
Proof.
  unfold unit2. intros U. assert (Y : ny * ny = 1 - nx * nx) by lra.
  assert (DV : dot 2 (fun i => V0 * co2 nx ny i + V1 * co2 (- ny) nx i) (co2 nx ny) = V0) by (cbv [dot sum seq fold_left co2]; ring [Y]).
  unfold fluxVT. rewrite DV. clear DV. unfold trafo2, sq, two. evm.
  cbv [mk mkT pairs Nat.eqb map app seq fst snd co2 delta strain]. leq; unfold Rdiv; try ring [Y].
  - replace (/ 2) with (1 / 2) by field. transitivity (- (lam m * V0 * (nx * nx + ny * ny) + 2 * mu m * (V0 * nx * nx - V1 * ny * nx))); [ring|]. rewrite U. field.
  - transitivity (- (lam m * V0 * (nx * nx + ny * ny) + 2 * mu m * (V0 * ny * ny + V1 * ny * nx))); [ring|]. rewrite U. field.
  - transitivity (- (mu m * (2 * V0 * nx * ny + V1 * (nx * nx - ny * ny)))); [ring|]. field.
Qed.

Lemma solver2 l r nx ny qL qR : solid l -> solid r -> unit2 nx ny -> length qL = 5%nat -> length qR = 5%nat ->
  vadd (mv 5 5 (tr2 nx ny) (mv 5 5 (flMid2R l r) (mv 5 5 (tri2 nx ny) qL))) (mv 5 5 (tr2 nx ny) (mv 5 5 (frMid2R l r) (mv 5 5 (tri2 nx ny) qR))) =
  fluxVT 2 l (co2 nx ny) (starV 2 l r (co2 nx ny) qL qR) (starT 2 l r (co2 nx ny) qL qR).
Proof.
  intros SL SR U LL LR. rewrite <- mv_vadd by (rewrite !len_mv; auto).
  destruct (faceState2 nx ny qL U LL) as (x1 & EL). destruct (faceState2 nx ny qR U LR) as (y1 & ER). cbv zeta in EL, ER. rewrite EL, ER, mid2 by auto.
  cbv zeta. rewrite faceFlux2 by auto. apply fluxVT_ext; [left; auto| |].
  - intros i Hi. unfold starV. cbv zeta. rewrite !perp_frame2 by auto. unfold par, wV, Rdiv. ring.
  - intros i Hi. unfold starT. cbv zeta. rewrite !perp_frame2 by auto. unfold par, wT, Rdiv. ring.
Qed.

Lemma freeSolver2 l nx ny q : solid l -> unit2 nx ny -> length q = 5%nat ->
  vadd (mv 5 5 (tr2 nx ny) (mv 5 5 (flMid2R l l) (mv 5 5 (tri2 nx ny) q))) (mv 5 5 (tr2 nx ny) (mv 5 5 (frMid2R l l) (mirror [0; 2]%nat (mv 5 5 (tri2 nx ny) q)))) =
  fluxVT 2 l (co2 nx ny) (freeV 2 l (co2 nx ny) q) (fun _ => 0).
Proof.
  intros SL U LL. rewrite <- mv_vadd by (rewrite !len_mv; auto).
  destruct (faceState2 nx ny q U LL) as (x1 & EL). cbv zeta in EL. rewrite EL.
  cbv [mirror length map seq existsb Nat.eqb orb nth]. rewrite mid2 by auto.
  cbv zeta. rewrite faceFlux2 by auto. assert (Z := zp_pos l SL). assert (Y := zs_pos l SL). apply fluxVT_ext; [left; auto| |].
  - intros i Hi. unfold freeV. rewrite <- (par_perp 2 (co2 nx ny) (vel 2 q) i). rewrite !perp_frame2 by auto. unfold par, wV. field. split; lra.
  - intros i Hi. unfold wT. field. lra.
Qed.
