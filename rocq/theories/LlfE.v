(** Proofs about local Lax-Friedrichs fluxes: conservation, energy. *)
From Coq Require Import List Arith Bool Reals Lra Lia.
From Verif Require Import Util ElSpec ElWave ElFace Llf LlfSpec LlfV LlfW.
Import ListNotations.
Open Scope R_scope.

Ltac len1 := repeat first [assumption | rewrite len_vscale | apply len_vadd | apply len_vsub | apply len_flux | apply len_zeros | apply len_llf].
Ltac len d := try assumption; match goal with |- length _ = nQt _ => len1 | |- length _ = length _ => transitivity (nQt d); [|symmetry]; len1 end.

(** ** The energy as scalar product *)
Lemma comp_sym d m q q' : dim d -> sum d (fun i => sum d (fun j => sig d q i j * compliance d m q' i j)) = sum d (fun i => sum d (fun j => sig d q' i j * compliance d m q i j)).
Proof.
  intros [-> | ->]; cbv [sum seq fold_left compliance delta Nat.eqb]; unfold Rdiv; ring.
Qed.
Lemma energy_sym d m q q' : dim d -> energy2 d m q q' = energy2 d m q' q.
Proof. intros D. unfold energy2. rewrite (comp_sym d m q q' D), (dot_comm d (vel d q)). reflexivity. Qed.
Lemma energy_add d m q a b : dim d -> length a = length b -> energy2 d m (vadd a b) q = energy2 d m a q + energy2 d m b q.
Proof.
  intros D L. unfold energy2. rewrite (sum_ext d (fun i => sum d (fun j => sig d (vadd a b) i j * compliance d m q i j)) (fun i => sum d (fun j => sig d a i j * compliance d m q i j) + sum d (fun j => sig d b i j * compliance d m q i j))).
  2:{ intros i _. rewrite <- sum_add. apply sum_ext. intros j _. rewrite sig_vadd by auto. ring. }
  rewrite sum_add. unfold dot. rewrite (sum_ext d (fun i => vel d (vadd a b) i * vel d q i) (fun i => vel d a i * vel d q i + vel d b i * vel d q i)).
  2:{ intros i _. rewrite vel_vadd by auto. ring. }
  rewrite sum_add. ring.
Qed.
Lemma energy_scale d m q c a : dim d -> energy2 d m (vscale c a) q = c * energy2 d m a q.
Proof.
  intros D. unfold energy2. rewrite (sum_ext d (fun i => sum d (fun j => sig d (vscale c a) i j * compliance d m q i j)) (fun i => c * sum d (fun j => sig d a i j * compliance d m q i j))).
  2:{ intros i _. rewrite <- sum_scal. apply sum_ext. intros j _. rewrite sig_vscale. ring. }
  rewrite sum_scal. unfold dot. rewrite (sum_ext d (fun i => vel d (vscale c a) i * vel d q i) (fun i => c * (vel d a i * vel d q i))).
  2:{ intros i _. rewrite vel_vscale. ring. }
  rewrite sum_scal. ring.
Qed.
Lemma vsub_add a b : length a = length b -> vsub a b = vadd a (vscale (- 1) b).
Proof.
  intros L. apply nth_ext with 0 0; [rewrite (len_vsub _ _ (length b)), (len_vadd _ _ (length b)); rewrite ?len_vscale; auto|]. intros i _. rewrite nth_vsub, nth_vadd, nth_vscale by (rewrite ?len_vscale; auto). ring.
Qed.
Lemma energy_sub d m q a b : dim d -> length a = length b -> energy2 d m (vsub a b) q = energy2 d m a q - energy2 d m b q.
Proof. intros D L. rewrite vsub_add, energy_add, energy_scale by (rewrite ?len_vscale; auto). ring. Qed.
Lemma energy_add_r d m q a b : dim d -> length a = length b -> energy2 d m q (vadd a b) = energy2 d m q a + energy2 d m q b.
Proof. intros. rewrite energy_sym, energy_add by auto. rewrite (energy_sym d m a), (energy_sym d m b) by auto. reflexivity. Qed.
Lemma energy_sub_r d m q a b : dim d -> length a = length b -> energy2 d m q (vsub a b) = energy2 d m q a - energy2 d m q b.
Proof. intros. rewrite energy_sym, energy_sub by auto. rewrite (energy_sym d m a), (energy_sym d m b) by auto. reflexivity. Qed.
Lemma energy_scale_r d m q c a : dim d -> energy2 d m q (vscale c a) = c * energy2 d m q a.
Proof. intros. rewrite energy_sym, energy_scale by auto. rewrite (energy_sym d m a) by auto. reflexivity. Qed.

(** ** Fluxes: linear, self-adjoint, bounded by the largest speed *)
Lemma flux_vadd d m n a b : dim d -> length a = nQt d -> length b = nQt d -> flux d m n (vadd a b) = vadd (flux d m n a) (flux d m n b).
Proof.
  intros D A B. apply (state_ext d); auto; [apply len_flux; auto|apply len_vadd; apply len_flux; auto| |].
  - intros i j Hi Hj. rewrite sig_vadd, !sig_flux by (rewrite ?len_flux; auto). unfold dot. rewrite (sum_ext d (fun i => vel d (vadd a b) i * n i) (fun i => vel d a i * n i + vel d b i * n i)), sum_add by (intros; rewrite vel_vadd by congruence; ring).
    unfold strain. rewrite !vel_vadd by congruence. field.
  - intros i Hi. rewrite vel_vadd, !vel_flux, traction_vadd by (rewrite ?len_flux; auto; congruence). unfold Rdiv. ring.
Qed.
Lemma traction_vscale d q n i c : traction d (vscale c q) n i = c * traction d q n i.
Proof. unfold traction. rewrite <- sum_scal. apply sum_ext. intros j _. rewrite sig_vscale. ring. Qed.
Lemma flux_vscale d m n c a : dim d -> flux d m n (vscale c a) = vscale c (flux d m n a).
Proof.
  intros D. apply (state_ext d); auto; rewrite ?len_vscale; try apply len_flux; auto.
  - intros i j Hi Hj. rewrite sig_vscale, !sig_flux by auto. unfold dot. rewrite (sum_ext d (fun i => vel d (vscale c a) i * n i) (fun i => c * (vel d a i * n i))), sum_scal by (intros; rewrite vel_vscale; ring).
    unfold strain. rewrite !vel_vscale. field.
  - intros i Hi. rewrite vel_vscale, !vel_flux, traction_vscale by auto. unfold Rdiv. ring.
Qed.
Lemma flux_vsub d m n a b : dim d -> length a = nQt d -> length b = nQt d -> flux d m n (vsub a b) = vsub (flux d m n a) (flux d m n b).
Proof.
  intros D A B. rewrite vsub_add by congruence. rewrite flux_vadd by (rewrite ?len_vscale; auto). rewrite flux_vscale by auto. symmetry. apply vsub_add. rewrite !len_flux by auto. reflexivity.
Qed.
Lemma flux_vneg d m n q : dim d -> flux d m (neg n) q = vscale (- 1) (flux d m n q).
Proof.
  intros D. apply (vec_ext (nQt d)); rewrite ?len_vscale; try apply len_flux; auto. intros i _. rewrite nth_vscale, (flux_neg d D). ring.
Qed.
Lemma flux_adjoint d m n q q' : dim d -> solid m -> energy2 d m q (flux d m n q') = energy2 d m q' (flux d m n q).
Proof. intros D S. rewrite !energy_flux by auto. ring. Qed.

Lemma dot_bound d n v : dot d n n = 1 -> dot d v n * dot d v n <= dot d v v.
Proof.
  intros U. assert (H := dot_self d (perp d n v)). assert (E : dot d (perp d n v) (perp d n v) = dot d v v - dot d v n * dot d v n).
  { unfold dot at 1, perp. transitivity (sum d (fun i => (v i * v i - 2 * dot d v n * (v i * n i)) + dot d v n * dot d v n * (n i * n i))); [apply sum_ext; intros; ring|].
    rewrite sum_add, sum_sub, !sum_scal. fold (dot d v v) (dot d v n) (dot d n n). rewrite U. ring. }
  lra.
Qed.

Lemma energy_fluxflux d m n q : dim d -> dot d n n = 1 -> solid m ->
  energy2 d m (flux d m n q) (flux d m n q) = dot d (traction d q n) (traction d q n) / rho m + ((lam m + mu m) * (dot d (vel d q) n * dot d (vel d q) n) + mu m * dot d (vel d q) (vel d q)).
Proof.
  intros D U SM. rewrite energy_flux by auto. assert (RP : 0 < rho m) by apply SM.
  assert (A : dot d (traction d q n) (vel d (flux d m n q)) = - (dot d (traction d q n) (traction d q n) / rho m)).
  { unfold dot. rewrite (sum_ext d (fun i => traction d q n i * vel d (flux d m n q) i) (fun i => - / rho m * (traction d q n i * traction d q n i))) by (intros; rewrite vel_flux by auto; unfold Rdiv; ring). rewrite sum_scal. unfold Rdiv. ring. }
  assert (B : dot d (traction d (flux d m n q) n) (vel d q) = - ((lam m + mu m) * (dot d (vel d q) n * dot d (vel d q) n) + mu m * dot d (vel d q) (vel d q))).
  { transitivity (sum d (fun i => - (lam m + mu m) * dot d (vel d q) n * (vel d q i * n i) + - mu m * (vel d q i * vel d q i))).
    - apply sum_ext. intros i Hi. assert (T : traction d (flux d m n q) n i = - ((lam m * dot d (vel d q) n + mu m * dot d (vel d q) n) * n i + mu m * vel d q i)).
      { rewrite <- (tract_iso d n (vel d q) (lam m * dot d (vel d q) n) (mu m) i Hi U). unfold traction. match goal with |- _ = - ?x => replace (- x) with (- (1) * x) by ring end. rewrite <- sum_scal. apply sum_ext. intros j Hj. rewrite sig_flux by auto. ring. }
      rewrite T. ring.
    - rewrite sum_add, !sum_scal. fold (dot d (vel d q) n) (dot d (vel d q) (vel d q)). ring. }
  rewrite A, B. ring.
Qed.

Lemma flux_bound d m n q : dim d -> dot d n n = 1 -> solid m -> length q = nQt d -> energy2 d m (flux d m n q) (flux d m n q) <= speedP m * speedP m * energy2 d m q q.
Proof.
  intros D U SM L. assert (RP : 0 < rho m) by apply SM. assert (MP : 0 < mu m) by apply SM. assert (LM : 0 < lam m + mu m) by (destruct SM; lra). destruct (solid_cp m SM) as (CP & SP & KP).
  (* parts of the state *)
  set (q0 := mk d (sig d q) (fun _ => 0)). set (t := traction d q n). set (w := mk d (fun _ _ => 0) t).
  assert (Q0 : length q0 = nQt d) by (apply mk_length; auto). assert (LW : length w = nQt d) by (apply mk_length; auto).
  assert (SQ : forall i j, (i < d)%nat -> (j < d)%nat -> sig d q0 i j = sig d q i j).
  { intros i j Hi Hj. unfold q0. clear - D Hi Hj. destruct D as [-> | ->]; destruct i as [|[|[|]]]; try lia; destruct j as [|[|[|]]]; try lia; reflexivity. }
  assert (VQ : forall i, (i < d)%nat -> vel d q0 i = 0) by (intros; unfold q0; rewrite vel_mk; auto).
  assert (SW : forall i j, (i < d)%nat -> (j < d)%nat -> sig d w i j = 0) by (intros; unfold w; rewrite sig_mk; auto).
  assert (VW : forall i, (i < d)%nat -> vel d w i = t i) by (intros; unfold w; rewrite vel_mk; auto).
  assert (EQ : energy2 d m q q = energy2 d m q0 q0 + rho m * dot d (vel d q) (vel d q)).
  { unfold energy2. rewrite (sum_ext d (fun i => sum d (fun j => sig d q0 i j * compliance d m q0 i j)) (fun i => sum d (fun j => sig d q i j * compliance d m q i j))).
    2:{ intros i Hi. apply sum_ext. intros j Hj. unfold compliance. rewrite SQ by auto. rewrite (sum_ext d (fun k => sig d q0 k k) (fun k => sig d q k k)); auto. }
    assert (Z : dot d (vel d q0) (vel d q0) = 0) by (apply sum_zero; intros i Hi; rewrite VQ by auto; ring). rewrite Z. ring. }
  assert (TQ : forall i, (i < d)%nat -> traction d q0 n i = t i) by (intros i Hi; unfold t, traction; apply sum_ext; intros j Hj; rewrite SQ; auto).
  assert (TW : forall i, (i < d)%nat -> traction d w n i = 0) by (intros i Hi; unfold traction; apply sum_zero; intros j Hj; rewrite SW by auto; ring).
  set (h := flux d m n w). assert (LH : length h = nQt d) by (apply len_flux; auto).
  assert (E1 : energy2 d m q0 h = - dot d t t).
  { unfold h. rewrite energy_flux by auto. assert (Z : dot d (traction d w n) (vel d q0) = 0) by (apply sum_zero; intros i Hi; rewrite TW by auto; ring). rewrite Z. rewrite (dot_ext d (traction d q0 n) (vel d w) t t) by auto. ring. }
  assert (DT : 0 <= dot d t t) by apply dot_self.
  assert (E2 : energy2 d m h h <= (lam m + 2 * mu m) * dot d t t).
  { unfold h. rewrite energy_fluxflux by auto. assert (Z : dot d (traction d w n) (traction d w n) = 0) by (apply sum_zero; intros i Hi; rewrite TW by auto; ring). rewrite Z.
    rewrite (dot_ext d (vel d w) n t n), (dot_ext d (vel d w) (vel d w) t t) by auto. assert (B := dot_bound d n t U). unfold Rdiv. rewrite Rmult_0_l. nra. }
  assert (E3 : dot d t t <= (lam m + 2 * mu m) * energy2 d m q0 q0).
  { set (k := / (lam m + 2 * mu m)). assert (KK : k * (lam m + 2 * mu m) = 1) by (unfold k; field; lra). assert (K0 : 0 < k) by (apply Rinv_0_lt_compat; lra).
    destruct (energy_pos d m (vadd q0 (vscale k h)) D SM) as (P & _); [apply len_vadd; rewrite ?len_vscale; auto|].
    rewrite energy_add, !energy_add_r, !energy_scale, !energy_scale_r in P by (rewrite ?len_vscale; congruence || auto). rewrite (energy_sym d m h q0 D), E1 in P.
    set (K := lam m + 2 * mu m) in *. set (x := dot d t t) in *. set (y := energy2 d m q0 q0) in *. set (z := energy2 d m h h) in *.
    assert (k * (k * z) <= k * x) by (assert (k * z <= x) by (apply Rle_trans with (k * (K * x)); [apply Rmult_le_compat_l; lra|rewrite <- Rmult_assoc, KK; lra]); apply Rmult_le_compat_l; lra).
    assert (k * x <= y) by lra. assert (K * (k * x) <= K * y) by (apply Rmult_le_compat_l; lra). replace (K * (k * x)) with (k * K * x) in H1 by ring. rewrite KK in H1. lra. }
  rewrite energy_fluxflux by auto. fold t. rewrite EQ. assert (B := dot_bound d n (vel d q) U). assert (DV : 0 <= dot d (vel d q) (vel d q)) by apply dot_self.
  assert (T1 : dot d t t / rho m <= speedP m * speedP m * energy2 d m q0 q0).
  { apply Rmult_le_reg_r with (rho m); [auto|]. replace (dot d t t / rho m * rho m) with (dot d t t) by (field; lra). replace (speedP m * speedP m * energy2 d m q0 q0 * rho m) with (speedP m * speedP m * rho m * energy2 d m q0 q0) by ring. rewrite SP. exact E3. }
  assert (T2 : (lam m + mu m) * (dot d (vel d q) n * dot d (vel d q) n) + mu m * dot d (vel d q) (vel d q) <= speedP m * speedP m * (rho m * dot d (vel d q) (vel d q))).
  { replace (speedP m * speedP m * (rho m * dot d (vel d q) (vel d q))) with (speedP m * speedP m * rho m * dot d (vel d q) (vel d q)) by ring. rewrite SP. assert ((lam m + mu m) * (dot d (vel d q) n * dot d (vel d q) n) <= (lam m + mu m) * dot d (vel d q) (vel d q)) by (apply Rmult_le_compat_l; lra). lra. }
  lra.
Qed.

(** ** Flux of local Lax-Friedrichs *)
Lemma llf_swap d m m' n q q' : dim d -> length q = nQt d -> length q' = nQt d -> llf d m' m (neg n) q' q = vscale (- 1) (llf d m m' n q q').
Proof.
  intros D L L'. apply (vec_ext (nQt d)); rewrite ?len_vscale; try apply len_llf; auto. intros i _. rewrite nth_vscale, !nth_llf, !(flux_neg d D), Rmax_comm by auto. field.
Qed.
Lemma llf_same d m n q : dim d -> length q = nQt d -> llf d m m n q q = flux d m n q.
Proof. intros D L. apply (vec_ext (nQt d)); [apply len_llf; auto|apply len_flux; auto|]. intros i _. rewrite nth_llf by auto. field. Qed.
Lemma llf_ext d m m' n n' q q' : dim d -> (forall i, (i < d)%nat -> n i = n' i) -> llf d m m' n q q' = llf d m m' n' q q'.
Proof. intros D H. unfold llf. rewrite (flux_ext d m n n' q), (flux_ext d m' n n' q') by auto. reflexivity. Qed.

Lemma llf_diff d m n q q' : dim d -> length q = nQt d -> length q' = nQt d -> let j := vsub q' q in
  vsub (llf d m m n q q') (flux d m n q) = vscale (1 / 2) (vsub (flux d m n j) (vscale (speedP m) j)) /\
  vsub (llf d m m (neg n) q' q) (flux d m (neg n) q') = vscale (1 / 2) (vadd (flux d m n j) (vscale (speedP m) j)).
Proof.
  intros D L L'. cbv zeta. assert (LJ : length (vsub q' q) = nQt d) by (apply len_vsub; auto). assert (LF : forall n q, length (flux d m n q) = nQt d) by (intros; apply len_flux; auto).
  split; (apply (vec_ext (nQt d)); [apply len_vsub; auto; apply len_llf; auto|rewrite len_vscale; (apply len_vsub || apply len_vadd); rewrite ?len_vscale; auto|]);
    intros i _; rewrite nth_vscale.
  - rewrite !nth_vsub by (rewrite ?len_vscale, ?LF, ?len_llf; auto; congruence). rewrite nth_llf, nth_vscale by auto. rewrite flux_vsub, nth_vsub by (auto; rewrite ?LF; congruence). rewrite nth_vsub by congruence. rewrite Rmax_left by lra. field.
  - rewrite nth_vsub, nth_vadd by (rewrite ?len_vscale, ?LF, ?len_llf; auto; congruence). rewrite nth_llf, nth_vscale by auto. rewrite flux_vsub, nth_vsub by (auto; rewrite ?LF; congruence). rewrite nth_vsub by congruence. rewrite !(flux_neg d D). rewrite Rmax_left by lra. field.
Qed.

(** energy lost at a face *)
Lemma llf_loss d m n q q' : dim d -> solid m -> length q = nQt d -> length q' = nQt d ->
  loss d m n q (llf d m m n q q') + loss d m (neg n) q' (llf d m m (neg n) q' q) = speedP m / 2 * energy2 d m (vsub q' q) (vsub q' q).
Proof.
  intros D SM L L'. rewrite llf_swap by auto. unfold loss. rewrite flux_vneg, !energy_scale_r by auto. unfold llf. rewrite Rmax_left by lra.
  rewrite !energy_sub_r, !energy_scale_r, !energy_add_r, !energy_sub_r by len d.
  rewrite !energy_sub by (auto; congruence). rewrite (flux_adjoint d m n q' q D SM), (energy_sym d m q' q D). field.
Qed.

Lemma gain_pair d m n q q' : dim d -> dot d n n = 1 -> solid m -> length q = nQt d -> length q' = nQt d ->
  gain d m n q (llf d m m n q q') + gain d m (neg n) q' (llf d m m (neg n) q' q) <= 0.
Proof.
  intros D U SM L L'. unfold gain. cbv zeta. destruct (llf_diff d m n q q' D L L') as (A & B). cbv zeta in A, B. rewrite A, B. assert (X := llf_loss d m n q q' D SM L L').
  set (j := vsub q' q) in *. assert (LJ : length j = nQt d) by (apply len_vsub; auto). assert (LF := len_flux d m n j D). destruct (solid_cp m SM) as (CP & _). assert (FB := flux_bound d m n j D U SM LJ).
  rewrite !energy_scale, !energy_scale_r, energy_sub, energy_add, !energy_sub_r, !energy_add_r, !energy_scale, !energy_scale_r by len d.
  rewrite (energy_sym d m j (flux d m n j) D). set (a := energy2 d m (flux d m n j) (flux d m n j)) in *. set (b := energy2 d m (flux d m n j) j) in *. set (c := energy2 d m j j) in *. set (s := speedP m) in *.
  set (l1 := loss _ _ _ _ _) in *. set (l2 := loss _ _ _ _ _) in *.
  assert (Y : (1 / 2 * (1 / 2 * (a - s * b - s * (b - s * c)))) / s + (1 / 2 * (1 / 2 * (a + s * b + s * (b + s * c)))) / s <= s * c).
  { apply Rmult_le_reg_r with s; auto. replace ((1 / 2 * (1 / 2 * (a - s * b - s * (b - s * c))) / s + 1 / 2 * (1 / 2 * (a + s * b + s * (b + s * c))) / s) * s) with (1 / 2 * (a + s * s * c)) by (field; lra). lra. }
  match goal with |- ?u / s - _ + (?v / s - _) <= 0 => replace u with (1 / 2 * (1 / 2 * (a - s * b - s * (b - s * c)))) by ring; replace v with (1 / 2 * (1 / 2 * (a + s * b + s * (b + s * c)))) by ring end. lra.
Qed.

Lemma gain_out d m n q : dim d -> dot d n n = 1 -> solid m -> length q = nQt d -> gain d m n q (llf d m m n q (zeros (nQt d))) <= 0.
Proof.
  intros D U SM L. assert (LZ := len_zeros (nQt d)). unfold gain. cbv zeta. destruct (llf_diff d m n q (zeros (nQt d)) D L LZ) as (A & _). cbv zeta in A. rewrite A. clear A.
  assert (J : vsub (zeros (nQt d)) q = vscale (- 1) q) by (apply (vec_ext (nQt d)); [apply len_vsub; auto|rewrite len_vscale; auto|]; intros i _; rewrite nth_vsub, nth_vscale, nth_zeros by congruence; ring). rewrite J.
  assert (LF := len_flux d m n q D). destruct (solid_cp m SM) as (CP & _). assert (FB := flux_bound d m n q D U SM L).
  assert (LO : loss d m n q (llf d m m n q (zeros (nQt d))) = speedP m / 2 * energy2 d m q q).
  { unfold loss, llf. rewrite Rmax_left by lra. rewrite J. rewrite energy_sub_r, !energy_scale_r, energy_add_r by len d.
    assert (Z : energy2 d m q (flux d m n (zeros (nQt d))) = 0) by (rewrite flux_adjoint by auto; apply energy_zeros; auto). rewrite Z. field. }
  rewrite LO. rewrite flux_vscale by auto. assert (P : 0 <= energy2 d m (vadd (flux d m n q) (vscale (speedP m) q)) (vadd (flux d m n q) (vscale (speedP m) q))) by (apply energy_pos; auto; apply len_vadd; rewrite ?len_vscale; auto).
  rewrite energy_add, !energy_add_r, !energy_scale, !energy_scale_r in P by len d. 
  rewrite !energy_scale, !energy_scale_r, energy_sub, !energy_sub_r, !energy_scale, !energy_scale_r by len d.
  rewrite (energy_sym d m q (flux d m n q) D) in *. set (a := energy2 d m (flux d m n q) (flux d m n q)) in *. set (b := energy2 d m (flux d m n q) q) in *. set (c := energy2 d m q q) in *. set (s := speedP m) in *.
  match goal with |- ?u / s - _ <= 0 => assert (Y : u / s <= s * c) end; [|lra]. apply Rmult_le_reg_r with s; auto.
  match goal with |- ?u / s * s <= _ => replace (u / s * s) with u by (field; lra) end. lra.
Qed.
