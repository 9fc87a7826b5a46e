(** Proofs about elastic waves: the states at a welded interface and at a free surface are unique, and their velocity and traction have closed forms. *)
From Coq Require Import List Arith Lia Reals Lra Field.
From Verif Require Import ElSpec.
Import ListNotations.
Open Scope R_scope.

(** ** Sums *)
Lemma fold_sum {A} (l : list A) (f : A -> R) x : fold_left (fun a i => a + f i) l x = x + fold_left (fun a i => a + f i) l 0.
Proof. revert x. induction l as [|y l IH]; intros x; cbn; [lra|]. rewrite IH, (IH (0 + f y)). lra. Qed.

Lemma sum_S n f : sum (S n) f = sum n f + f n.
Proof. unfold sum. rewrite seq_S, fold_left_app. reflexivity. Qed.
Lemma sum_0 f : sum 0 f = 0.
Proof. reflexivity. Qed.

Lemma sum_ext n f g : (forall i, (i < n)%nat -> f i = g i) -> sum n f = sum n g.
Proof. induction n as [|n IH]; intros H; [reflexivity|]. rewrite !sum_S, IH, H by (auto; intros; apply H; lia). reflexivity. Qed.
Lemma sum_add n f g : sum n (fun i => f i + g i) = sum n f + sum n g.
Proof. induction n as [|n IH]; [rewrite !sum_0; lra|]. rewrite !sum_S, IH. lra. Qed.
Lemma sum_sub n f g : sum n (fun i => f i - g i) = sum n f - sum n g.
Proof. induction n as [|n IH]; [rewrite !sum_0; lra|]. rewrite !sum_S, IH. lra. Qed.
Lemma sum_scal n c f : sum n (fun i => c * f i) = c * sum n f.
Proof. induction n as [|n IH]; [rewrite !sum_0; lra|]. rewrite !sum_S, IH. lra. Qed.
Lemma sum_zero n f : (forall i, (i < n)%nat -> f i = 0) -> sum n f = 0.
Proof. induction n as [|n IH]; intros H; [reflexivity|]. rewrite sum_S, IH, H by (auto; intros; apply H; lia). lra. Qed.
Lemma sum_swap n m f : sum n (fun i => sum m (fun j => f i j)) = sum m (fun j => sum n (fun i => f i j)).
Proof. induction n as [|n IH]; [rewrite sum_0; symmetry; apply sum_zero; reflexivity|]. rewrite sum_S, IH, <- sum_add. apply sum_ext. intros. rewrite sum_S. reflexivity. Qed.
Lemma sum_delta n i f : (i < n)%nat -> sum n (fun j => delta i j * f j) = f i.
Proof.
  induction n as [|n IH]; intros H; [lia|]. rewrite sum_S. destruct (Nat.eq_dec i n) as [->|N].
  - rewrite sum_zero; [unfold delta; rewrite Nat.eqb_refl; lra|]. intros j Hj. unfold delta. destruct (Nat.eqb_spec n j); [lia|lra].
  - rewrite IH by lia. unfold delta. destruct (Nat.eqb_spec i n); [lia|lra].
Qed.
Lemma sum_nonneg n f : (forall i, (i < n)%nat -> 0 <= f i) -> 0 <= sum n f.
Proof. induction n as [|n IH]; intros H; [rewrite sum_0; lra|]. rewrite sum_S. assert (0 <= sum n f) by (apply IH; intros; apply H; lia). assert (0 <= f n) by (apply H; lia). lra. Qed.

(** ** Entries of states *)
Definition dim (d : nat) : Prop := d = 2%nat \/ d = 3%nat.

Lemma sig_mk d s v i j : dim d -> (i < d)%nat -> (j < d)%nat -> (forall i j, s i j = s j i) -> sig d (mk d s v) i j = s i j.
Proof.
  intros [-> | ->] Hi Hj SY; unfold sig, mk, mkT, pairs; cbn [Nat.eqb].
  - destruct i as [|[|]]; try lia; destruct j as [|[|]]; try lia; cbn; auto.
  - destruct i as [|[|[|]]]; try lia; destruct j as [|[|[|]]]; try lia; cbn; auto.
Qed.
Lemma vel_mk d s v i : dim d -> (i < d)%nat -> vel d (mk d s v) i = v i.
Proof.
  intros [-> | ->] Hi; unfold vel, mk, mkT, nSt, pairs; cbn [Nat.eqb].
  - destruct i as [|[|]]; try lia; reflexivity.
  - destruct i as [|[|[|]]]; try lia; reflexivity.
Qed.
Lemma mk_length d s v : dim d -> length (mk d s v) = nQt d.
Proof. intros [-> | ->]; reflexivity. Qed.

Lemma sig_sym d q i j : dim d -> (i < d)%nat -> (j < d)%nat -> sig d q i j = sig d q j i.
Proof.
  intros [-> | ->] Hi Hj; unfold sig, pairs; cbn [Nat.eqb].
  - destruct i as [|[|]]; try lia; destruct j as [|[|]]; try lia; reflexivity.
  - destruct i as [|[|[|]]]; try lia; destruct j as [|[|[|]]]; try lia; reflexivity.
Qed.

Lemma state_ext d q q' : dim d -> length q = nQt d -> length q' = nQt d -> (forall i j, (i < d)%nat -> (j < d)%nat -> sig d q i j = sig d q' i j) ->
  (forall i, (i < d)%nat -> vel d q i = vel d q' i) -> q = q'.
Proof.
  intros [-> | ->] L L' SG VE.
  - cbn in L, L'. do 5 (destruct q as [|? q]; [discriminate|]). destruct q; [|discriminate]. do 5 (destruct q' as [|? q']; [discriminate|]). destruct q'; [|discriminate].
    assert (A := SG 0%nat 0%nat ltac:(lia) ltac:(lia)). assert (B := SG 1%nat 1%nat ltac:(lia) ltac:(lia)). assert (C := SG 0%nat 1%nat ltac:(lia) ltac:(lia)).
    assert (D := VE 0%nat ltac:(lia)). assert (E := VE 1%nat ltac:(lia)). cbn in A, B, C, D, E. subst. reflexivity.
  - cbn in L, L'. do 9 (destruct q as [|? q]; [discriminate|]). destruct q; [|discriminate]. do 9 (destruct q' as [|? q']; [discriminate|]). destruct q'; [|discriminate].
    assert (A := SG 0%nat 0%nat ltac:(lia) ltac:(lia)). assert (B := SG 1%nat 1%nat ltac:(lia) ltac:(lia)). assert (C := SG 2%nat 2%nat ltac:(lia) ltac:(lia)).
    assert (A' := SG 0%nat 1%nat ltac:(lia) ltac:(lia)). assert (B' := SG 1%nat 2%nat ltac:(lia) ltac:(lia)). assert (C' := SG 0%nat 2%nat ltac:(lia) ltac:(lia)).
    assert (D := VE 0%nat ltac:(lia)). assert (E := VE 1%nat ltac:(lia)). assert (F := VE 2%nat ltac:(lia)). cbn in A, B, C, A', B', C', D, E, F. subst. reflexivity.
Qed.

Lemma nth_vadd q q' i : length q = length q' -> nth i (vadd q q') 0 = nth i q 0 + nth i q' 0.
Proof.
  unfold vadd. revert q' i. induction q as [|x q IH]; intros [|y q'] i L; try discriminate; [destruct i; cbn; lra|]. destruct i; cbn; [reflexivity|]. apply IH. cbn in L. lia.
Qed.
Lemma nth_vsub q q' i : length q = length q' -> nth i (vsub q q') 0 = nth i q 0 - nth i q' 0.
Proof.
  unfold vsub. revert q' i. induction q as [|x q IH]; intros [|y q'] i L; try discriminate; [destruct i; cbn; lra|]. destruct i; cbn; [reflexivity|]. apply IH. cbn in L. lia.
Qed.
Lemma nth_vscale c q i : nth i (vscale c q) 0 = c * nth i q 0.
Proof. unfold vscale. revert i. induction q as [|x q IH]; intros [|i]; cbn; auto; lra. Qed.
Lemma len_vadd q q' n : length q = n -> length q' = n -> length (vadd q q') = n.
Proof. intros A B. unfold vadd. rewrite map_length, combine_length. lia. Qed.
Lemma len_vsub q q' n : length q = n -> length q' = n -> length (vsub q q') = n.
Proof. intros A B. unfold vsub. rewrite map_length, combine_length. lia. Qed.

Lemma sig_vadd d q q' i j : length q = length q' -> sig d (vadd q q') i j = sig d q i j + sig d q' i j.
Proof. apply nth_vadd. Qed.
Lemma vel_vadd d q q' i : length q = length q' -> vel d (vadd q q') i = vel d q i + vel d q' i.
Proof. apply nth_vadd. Qed.
Lemma sig_vsub d q q' i j : length q = length q' -> sig d (vsub q q') i j = sig d q i j - sig d q' i j.
Proof. apply nth_vsub. Qed.
Lemma vel_vsub d q q' i : length q = length q' -> vel d (vsub q q') i = vel d q i - vel d q' i.
Proof. apply nth_vsub. Qed.
Lemma sig_vscale d c q i j : sig d (vscale c q) i j = c * sig d q i j.
Proof. apply nth_vscale. Qed.
Lemma vel_vscale d c q i : vel d (vscale c q) i = c * vel d q i.
Proof. apply nth_vscale. Qed.

Lemma strain_sym v n i j : strain v n i j = strain v n j i.
Proof. unfold strain. lra. Qed.
Lemma delta_sym i j : delta i j = delta j i.
Proof. unfold delta. rewrite Nat.eqb_sym. reflexivity. Qed.

Lemma sig_flux d m n q i j : dim d -> (i < d)%nat -> (j < d)%nat -> sig d (flux d m n q) i j = - (lam m * dot d (vel d q) n * delta i j + 2 * mu m * strain (vel d q) n i j).
Proof. intros D Hi Hj. unfold flux. rewrite sig_mk; auto. intros a b. rewrite (delta_sym a b), (strain_sym _ _ a b). reflexivity. Qed.
Lemma vel_flux d m n q i : dim d -> (i < d)%nat -> vel d (flux d m n q) i = - (traction d q n i / rho m).
Proof. intros D Hi. unfold flux. rewrite vel_mk; auto. Qed.

Lemma traction_vsub d q q' n i : length q = length q' -> traction d (vsub q q') n i = traction d q n i - traction d q' n i.
Proof. intros L. unfold traction. rewrite <- sum_sub. apply sum_ext. intros. rewrite sig_vsub by auto. lra. Qed.
Lemma traction_vadd d q q' n i : length q = length q' -> traction d (vadd q q') n i = traction d q n i + traction d q' n i.
Proof. intros L. unfold traction. rewrite <- sum_add. apply sum_ext. intros. rewrite sig_vadd by auto. lra. Qed.
Lemma traction_neg d q n i : traction d q (neg n) i = - traction d q n i.
Proof. unfold traction, neg. replace (- sum d (fun j => sig d q i j * n j)) with ((-1) * sum d (fun j => sig d q i j * n j)) by lra. rewrite <- sum_scal. apply sum_ext. intros. lra. Qed.
Lemma dot_neg d v n : dot d v (neg n) = - dot d v n.
Proof. unfold dot, neg. replace (- sum d (fun i => v i * n i)) with ((-1) * sum d (fun i => v i * n i)) by lra. rewrite <- sum_scal. apply sum_ext. intros. lra. Qed.
Lemma dot_neg2 d n : dot d (neg n) (neg n) = dot d n n.
Proof. unfold dot, neg. apply sum_ext. intros. lra. Qed.
Lemma neg_neg d q n i : traction d q (neg (neg n)) i = traction d q n i.
Proof. rewrite !traction_neg. lra. Qed.
Lemma dot_ext d v w v' w' : (forall i, (i < d)%nat -> v i = v' i) -> (forall i, (i < d)%nat -> w i = w' i) -> dot d v w = dot d v' w'.
Proof. intros A B. apply sum_ext. intros. rewrite A, B by auto. reflexivity. Qed.
Lemma dot_sub d v w n : dot d (fun i => v i - w i) n = dot d v n - dot d w n.
Proof. unfold dot. rewrite <- sum_sub. apply sum_ext. intros. lra. Qed.
Lemma dot_lin d a v b w n : dot d (fun i => a * v i + b * w i) n = a * dot d v n + b * dot d w n.
Proof. unfold dot. rewrite <- !sum_scal, <- sum_add. apply sum_ext. intros. lra. Qed.

(** traction of a symmetric tensor a delta + 2 b strain(v,n) *)
Lemma tract_iso d n v a b i : (i < d)%nat -> dot d n n = 1 -> sum d (fun j => (a * delta i j + 2 * b * strain v n i j) * n j) = (a + b * dot d v n) * n i + b * v i.
Proof.
  intros Hi U. transitivity (sum d (fun j => a * (delta i j * n j) + (b * v i * (n j * n j) + b * n i * (v j * n j)))).
  - apply sum_ext. intros j Hj. unfold strain. field.
  - rewrite !sum_add, !sum_scal, sum_delta by auto. fold (dot d n n). fold (dot d v n). rewrite U. ring.
Qed.

(** ** Waves *)

Lemma solid_cp m : solid m -> 0 < speedP m /\ speedP m * speedP m * rho m = lam m + 2 * mu m /\ 0 < lam m + 2 * mu m.
Proof.
  intros (R & M & L). assert (P : 0 < lam m + 2 * mu m) by lra. assert (Q : 0 < (lam m + 2 * mu m) / rho m) by (apply Rdiv_lt_0_compat; auto).
  split; [apply sqrt_lt_R0; auto|]. split; [|auto]. unfold speedP. rewrite sqrt_sqrt by lra. field. lra.
Qed.
Lemma solid_cs m : solid m -> 0 < speedS m /\ speedS m * speedS m * rho m = mu m.
Proof.
  intros (R & M & L). assert (Q : 0 < mu m / rho m) by (apply Rdiv_lt_0_compat; auto).
  split; [apply sqrt_lt_R0; auto|]. unfold speedS. rewrite sqrt_sqrt by lra. field. lra.
Qed.

(** impedances *)
Definition zp (m : material) : R := rho m * speedP m.
Definition zs (m : material) : R := rho m * speedS m.
Lemma zp_pos m : solid m -> 0 < zp m.
Proof. intros H. apply Rmult_lt_0_compat; [apply H|apply solid_cp, H]. Qed.
Lemma zs_pos m : solid m -> 0 < zs m.
Proof. intros H. apply Rmult_lt_0_compat; [apply H|apply solid_cs, H]. Qed.

(** components along and across the normal *)
Definition par (d : nat) (n v : nat -> R) (i : nat) : R := dot d v n * n i.
Definition perp (d : nat) (n v : nat -> R) (i : nat) : R := v i - dot d v n * n i.

Lemma dot_par d n v : dot d n n = 1 -> dot d (par d n v) n = dot d v n.
Proof. intros U. unfold dot, par at 1. transitivity (sum d (fun i => dot d v n * (n i * n i))); [apply sum_ext; intros; ring|]. rewrite sum_scal. fold (dot d n n). rewrite U. unfold dot. ring. Qed.
Lemma dot_perp d n v : dot d n n = 1 -> dot d (perp d n v) n = 0.
Proof. intros U. unfold perp. rewrite dot_sub. fold (par d n v). rewrite dot_par by auto. lra. Qed.

(** a wave that moves against n with velocity jump w *)
Definition wave (d : nat) (m : material) (n : nat -> R) (w : nat -> R) : list R :=
  mk d (fun i j => (lam m * dot d w n * delta i j + 2 * mu m * strain (par d n w) n i j) / speedP m + 2 * mu m * strain (perp d n w) n i j / speedS m) w.

Lemma eigen d m n c q : dim d -> dot d n n = 1 -> length q = nQt d -> 0 < rho m -> c <> 0 -> flux d m n q = vscale (- c) q ->
  (forall i j, (i < d)%nat -> (j < d)%nat -> sig d q i j = (lam m * dot d (vel d q) n * delta i j + 2 * mu m * strain (vel d q) n i j) / c) /\
  (forall i, (i < d)%nat -> c * c * rho m * vel d q i = (lam m + mu m) * dot d (vel d q) n * n i + mu m * vel d q i).
Proof.
  intros D U L RP C E.
  assert (SG : forall i j, (i < d)%nat -> (j < d)%nat -> sig d q i j = (lam m * dot d (vel d q) n * delta i j + 2 * mu m * strain (vel d q) n i j) / c).
  { intros i j Hi Hj. assert (X := f_equal (fun l => sig d l i j) E). cbv beta in X. rewrite sig_flux, sig_vscale in X by auto.
    apply Rmult_eq_reg_l with c; [|auto]. replace (c * sig d q i j) with (- (- c * sig d q i j)) by ring. rewrite <- X. field. auto. }
  split; [exact SG|]. intros i Hi. assert (X := f_equal (fun l => vel d l i) E). cbv beta in X. rewrite vel_flux, vel_vscale in X by auto.
  assert (T : traction d q n i = (lam m * dot d (vel d q) n + mu m * dot d (vel d q) n) * n i / c + mu m * vel d q i / c).
  { unfold traction. transitivity (/ c * sum d (fun j => (lam m * dot d (vel d q) n * delta i j + 2 * mu m * strain (vel d q) n i j) * n j)).
    - rewrite <- sum_scal. apply sum_ext. intros j Hj. rewrite SG by auto. field. auto.
    - rewrite tract_iso by auto. field. auto. }
  transitivity (c * rho m * (- (- c * vel d q i))); [ring|]. rewrite <- X, T. field. split; auto; lra.
Qed.

Lemma entering_wave d m n dq : dim d -> dot d n n = 1 -> solid m -> length dq = nQt d -> entering d m n dq <-> dq = wave d m n (vel d dq).
Proof.
  intros D U SM L. destruct (solid_cp m SM) as (CP & CP2 & LM). destruct (solid_cs m SM) as (CS & CS2). assert (RP : 0 < rho m) by apply SM. assert (MP : 0 < mu m) by apply SM.
  assert (LM1 : 0 < lam m + mu m) by (destruct SM as (? & ? & ?); lra).
  split.
  - intros (wp & ws & Lp & Ls & E & Ep & Es).
    destruct (eigen d m n (speedP m) wp D U Lp RP ltac:(lra) Ep) as (SP & VP). destruct (eigen d m n (speedS m) ws D U Ls RP ltac:(lra) Es) as (SS & VS).
    assert (VP' : forall i, (i < d)%nat -> vel d wp i = dot d (vel d wp) n * n i).
    { intros i Hi. assert (X := VP i Hi). rewrite CP2 in X. apply Rmult_eq_reg_l with (lam m + mu m); [|lra]. replace ((lam m + mu m) * vel d wp i) with ((lam m + 2 * mu m) * vel d wp i - mu m * vel d wp i) by ring. rewrite X. ring. }
    assert (VS' : dot d (vel d ws) n = 0).
    { assert (X : (lam m + mu m) * dot d (vel d ws) n * dot d n n = 0).
      { unfold dot at 2. rewrite <- sum_scal. apply sum_zero. intros i Hi. assert (X := VS i Hi). rewrite CS2 in X.
        replace ((lam m + mu m) * dot d (vel d ws) n * (n i * n i)) with (((lam m + mu m) * dot d (vel d ws) n * n i) * n i) by ring.
        replace ((lam m + mu m) * dot d (vel d ws) n * n i) with 0 by lra. ring. }
      rewrite U in X. nra. }
    assert (V : forall i, (i < d)%nat -> vel d dq i = vel d wp i + vel d ws i) by (intros i Hi; rewrite E; apply vel_vadd; lia).
    assert (VN : dot d (vel d dq) n = dot d (vel d wp) n).
    { transitivity (dot d (fun i => 1 * vel d wp i + 1 * vel d ws i) n); [apply dot_ext; auto; intros; rewrite V by auto; ring|]. rewrite dot_lin, VS'. ring. }
    assert (PA : forall i, (i < d)%nat -> par d n (vel d dq) i = vel d wp i) by (intros i Hi; unfold par; rewrite VN, <- VP' by auto; reflexivity).
    assert (PE : forall i, (i < d)%nat -> perp d n (vel d dq) i = vel d ws i) by (intros i Hi; unfold perp; rewrite VN, <- VP', V by auto; ring).
    unfold wave. apply (state_ext d); [exact D|exact L|apply mk_length, D| |].
    + intros i j Hi Hj. rewrite sig_mk; [|exact D|exact Hi|exact Hj|intros a b; rewrite (delta_sym a b), !(strain_sym _ _ a b); reflexivity].
      rewrite E at 1. rewrite sig_vadd by lia. rewrite SP, SS by auto. unfold strain. rewrite !PA, !PE, VN, VS' by auto. field. split; lra.
    + intros i Hi. rewrite vel_mk by auto. reflexivity.
  - intros E. set (w := vel d dq) in *.
    exists (mk d (fun i j => (lam m * dot d w n * delta i j + 2 * mu m * strain (par d n w) n i j) / speedP m) (par d n w)), (mk d (fun i j => 2 * mu m * strain (perp d n w) n i j / speedS m) (perp d n w)).
    assert (SY1 : forall a b, (lam m * dot d w n * delta a b + 2 * mu m * strain (par d n w) n a b) / speedP m = (lam m * dot d w n * delta b a + 2 * mu m * strain (par d n w) n b a) / speedP m) by (intros a b; rewrite (delta_sym a b), !(strain_sym _ _ a b); reflexivity).
    assert (SY2 : forall a b, 2 * mu m * strain (perp d n w) n a b / speedS m = 2 * mu m * strain (perp d n w) n b a / speedS m) by (intros a b; rewrite !(strain_sym _ _ a b); reflexivity).
    assert (L1 : forall s v, length (mk d s v) = nQt d) by (intros; apply mk_length, D).
    split; [apply L1|]. split; [apply L1|]. split.
    { apply (state_ext d); [exact D|exact L|apply len_vadd; apply L1| |].
      - intros i j Hi Hj. rewrite sig_vadd by (rewrite !L1; reflexivity). rewrite E. unfold wave. rewrite !sig_mk; auto. intros a b. rewrite (delta_sym a b), !(strain_sym _ _ a b). reflexivity.
      - intros i Hi. rewrite vel_vadd by (rewrite !L1; reflexivity). rewrite !vel_mk by auto. fold w. unfold par, perp. ring. }
    assert (DPA : dot d (vel d (mk d (fun i j => (lam m * dot d w n * delta i j + 2 * mu m * strain (par d n w) n i j) / speedP m) (par d n w))) n = dot d w n).
    { rewrite <- (dot_par d n w U). apply dot_ext; auto. intros. apply vel_mk; auto. }
    assert (DPE : dot d (vel d (mk d (fun i j => 2 * mu m * strain (perp d n w) n i j / speedS m) (perp d n w))) n = 0).
    { rewrite <- (dot_perp d n w U). apply dot_ext; auto. intros. apply vel_mk; auto. }
    split; apply (state_ext d); auto; try (unfold flux; apply L1); try (unfold vscale; rewrite map_length; apply L1).
    + intros i j Hi Hj. rewrite sig_flux, sig_vscale, sig_mk, DPA by auto. unfold strain. rewrite !vel_mk by auto. unfold par. field. lra.
    + intros i Hi. rewrite vel_flux, vel_vscale, vel_mk by auto. unfold traction.
      rewrite (sum_ext d _ (fun j => / speedP m * ((lam m * dot d w n * delta i j + 2 * mu m * strain (par d n w) n i j) * n j))) by (intros j Hj; rewrite sig_mk by auto; field; lra).
      rewrite sum_scal, tract_iso, dot_par by auto. unfold par. apply Rmult_eq_reg_l with (speedP m * rho m); [|apply Rmult_integral_contrapositive; split; lra].
      transitivity (- ((lam m + 2 * mu m) * dot d w n * n i)); [field; split; lra|]. rewrite <- CP2. ring.
    + intros i j Hi Hj. rewrite sig_flux, sig_vscale, sig_mk, DPE by auto. unfold strain. rewrite !vel_mk by auto. field. lra.
    + intros i Hi. rewrite vel_flux, vel_vscale, vel_mk by auto. unfold traction.
      rewrite (sum_ext d _ (fun j => / speedS m * ((0 * delta i j + 2 * mu m * strain (perp d n w) n i j) * n j))) by (intros j Hj; rewrite sig_mk by auto; field; lra).
      rewrite sum_scal, tract_iso, dot_perp by auto. apply Rmult_eq_reg_l with (speedS m * rho m); [|apply Rmult_integral_contrapositive; split; lra].
      transitivity (- (mu m * perp d n w i)); [field; split; lra|]. rewrite <- CS2. ring.
Qed.

Lemma wave_traction d m n w i : dim d -> (i < d)%nat -> dot d n n = 1 -> solid m -> traction d (wave d m n w) n i = zp m * par d n w i + zs m * perp d n w i.
Proof.
  intros D Hi U SM. destruct (solid_cp m SM) as (CP & CP2 & LM). destruct (solid_cs m SM) as (CS & CS2). assert (RP : 0 < rho m) by apply SM.
  unfold traction, wave. rewrite (sum_ext d _ (fun j => / speedP m * ((lam m * dot d w n * delta i j + 2 * mu m * strain (par d n w) n i j) * n j) + / speedS m * ((0 * delta i j + 2 * mu m * strain (perp d n w) n i j) * n j))).
  2:{ intros j Hj. rewrite sig_mk; auto; [field; split; lra|]. intros a b. rewrite (delta_sym a b), !(strain_sym _ _ a b). reflexivity. }
  rewrite sum_add, !sum_scal, !tract_iso, dot_par, dot_perp by auto. unfold zp, zs.
  transitivity ((lam m + 2 * mu m) * par d n w i / speedP m + mu m * perp d n w i / speedS m); [unfold par; field; split; lra|]. rewrite <- CP2, <- CS2. field. split; lra.
Qed.
Lemma wave_length d m n w : dim d -> length (wave d m n w) = nQt d.
Proof. apply mk_length. Qed.
Lemma wave_vel d m n w i : dim d -> (i < d)%nat -> vel d (wave d m n w) i = w i.
Proof. apply vel_mk. Qed.

Lemma wave_sig d m n w i j : dim d -> (i < d)%nat -> (j < d)%nat -> sig d (wave d m n w) i j =
  (lam m * dot d w n * delta i j + 2 * mu m * strain (par d n w) n i j) / speedP m + 2 * mu m * strain (perp d n w) n i j / speedS m.
Proof. intros D Hi Hj. unfold wave. apply sig_mk; auto. intros a b. rewrite (delta_sym a b), !(strain_sym _ _ a b). reflexivity. Qed.
Lemma wave_ext d m n w w' : dim d -> (forall i, (i < d)%nat -> w i = w' i) -> wave d m n w = wave d m n w'.
Proof.
  intros D H. apply (state_ext d); try apply mk_length; auto.
  - intros i j Hi Hj. rewrite !wave_sig by auto. rewrite (dot_ext d w n w' n) by auto. unfold strain, par, perp. rewrite (dot_ext d w n w' n), !H by auto. reflexivity.
  - intros i Hi. rewrite !wave_vel by auto. auto.
Qed.

(** velocity and traction relation of entering waves *)
Lemma entering_traction d m n s q i : dim d -> dot d n n = 1 -> solid m -> length s = nQt d -> length q = nQt d -> entering d m n (vsub s q) -> (i < d)%nat ->
  let w i := vel d s i - vel d q i in traction d s n i - traction d q n i = zp m * par d n w i + zs m * perp d n w i.
Proof.
  intros D U SM Ls Lq E Hi w. assert (L := len_vsub s q _ Ls Lq). apply entering_wave in E; auto.
  rewrite <- traction_vsub by lia. rewrite E at 1. rewrite wave_traction by auto.
  assert (X : dot d (vel d (vsub s q)) n = dot d w n) by (apply dot_ext; auto; intros; unfold w; rewrite vel_vsub by lia; reflexivity).
  unfold par, perp. rewrite X. unfold w. rewrite vel_vsub by lia. reflexivity.
Qed.

(** ** Welded interfaces *)

(** velocity and traction at the interface: mean values, weighted by the impedances *)
Definition starV (d : nat) (l r : material) (n : nat -> R) (qL qR : list R) (i : nat) : R :=
  let wt zL zR (f : (nat -> R) -> nat -> R) := (zL * f (vel d qL) i + zR * f (vel d qR) i + f (traction d qR n) i - f (traction d qL n) i) / (zL + zR) in
  wt (zp l) (zp r) (par d n) + wt (zs l) (zs r) (perp d n).
Definition starT (d : nat) (l r : material) (n : nat -> R) (qL qR : list R) (i : nat) : R :=
  let wt zL zR (f : (nat -> R) -> nat -> R) := (zR * f (traction d qL n) i + zL * f (traction d qR n) i + zL * zR * (f (vel d qR) i - f (vel d qL) i)) / (zL + zR) in
  wt (zp l) (zp r) (par d n) + wt (zs l) (zs r) (perp d n).

Lemma par_sub d n v w i : par d n (fun i => v i - w i) i = par d n v i - par d n w i.
Proof. unfold par. rewrite dot_sub. ring. Qed.
Lemma perp_sub d n v w i : perp d n (fun i => v i - w i) i = perp d n v i - perp d n w i.
Proof. unfold perp. rewrite dot_sub. ring. Qed.
Lemma par_perp d n v i : par d n v i + perp d n v i = v i.
Proof. unfold par, perp. ring. Qed.
Lemma par_ext d n v w i : (i < d)%nat -> (forall i, (i < d)%nat -> v i = w i) -> par d n v i = par d n w i.
Proof. intros Hi H. unfold par. rewrite (dot_ext d v n w n) by auto. reflexivity. Qed.
Lemma perp_ext d n v w i : (i < d)%nat -> (forall i, (i < d)%nat -> v i = w i) -> perp d n v i = perp d n w i.
Proof. intros Hi H. unfold perp. rewrite (dot_ext d v n w n), H by auto. reflexivity. Qed.
Lemma par_neg d n v i : par d (neg n) v i = par d n v i.
Proof. unfold par. rewrite dot_neg. unfold neg. ring. Qed.
Lemma perp_neg d n v i : perp d (neg n) v i = perp d n v i.
Proof. unfold perp. rewrite dot_neg. unfold neg. ring. Qed.
Lemma par_opp d n v i : par d n (fun i => - v i) i = - par d n v i.
Proof. unfold par. replace (dot d (fun i => - v i) n) with (- dot d v n); [ring|]. rewrite <- (Rmult_1_l (dot d v n)). rewrite <- Ropp_mult_distr_l_reverse. unfold dot. rewrite <- sum_scal. apply sum_ext. intros. ring. Qed.
Lemma perp_opp d n v i : perp d n (fun i => - v i) i = - perp d n v i.
Proof. assert (X := par_perp d n (fun i => - v i) i). rewrite par_opp in X. assert (Y := par_perp d n v i). lra. Qed.
Lemma par_par d n v i : dot d n n = 1 -> par d n (par d n v) i = par d n v i.
Proof. intros U. unfold par at 1. rewrite dot_par by auto. reflexivity. Qed.
Lemma par_lin d n a v b w i : par d n (fun i => a * v i + b * w i) i = a * par d n v i + b * par d n w i.
Proof. unfold par. rewrite dot_lin. ring. Qed.
Lemma perp_lin d n a v b w i : perp d n (fun i => a * v i + b * w i) i = a * perp d n v i + b * perp d n w i.
Proof. unfold perp. rewrite dot_lin. ring. Qed.
Lemma par_of_perp d n v i : dot d n n = 1 -> par d n (perp d n v) i = 0.
Proof. intros U. unfold par. rewrite dot_perp by auto. ring. Qed.
Lemma perp_of_par d n v i : dot d n n = 1 -> perp d n (par d n v) i = 0.
Proof. intros U. unfold perp. rewrite dot_par by auto. unfold par. ring. Qed.

(** both equations of a side, split into the components along and across the normal *)
Lemma split_rel d n (t v : nat -> R) z1 z2 : dot d n n = 1 -> (forall i, (i < d)%nat -> t i = z1 * par d n v i + z2 * perp d n v i) ->
  forall i, (i < d)%nat -> par d n t i = z1 * par d n v i /\ perp d n t i = z2 * perp d n v i.
Proof.
  intros U H i Hi. rewrite (par_ext d n t (fun i => z1 * par d n v i + z2 * perp d n v i)) by auto. rewrite (perp_ext d n t (fun i => z1 * par d n v i + z2 * perp d n v i)) by auto.
  rewrite par_lin, perp_lin, par_par, par_of_perp, perp_of_par by auto. split; [ring|]. unfold perp at 1. rewrite dot_perp by auto. ring.
Qed.

Lemma riemann_star d l r n qL qR sL sR : dim d -> dot d n n = 1 -> solid l -> solid r -> length qL = nQt d -> length qR = nQt d -> riemann d l r n qL qR sL sR ->
  forall i, (i < d)%nat -> vel d sL i = starV d l r n qL qR i /\ traction d sL n i = starT d l r n qL qR i.
Proof.
  intros D U SL SR LqL LqR (LsL & LsR & EL & ER & TC & VC). assert (U' : dot d (neg n) (neg n) = 1) by (rewrite dot_neg2; auto).
  assert (HL := split_rel d n (fun i => traction d sL n i - traction d qL n i) (fun i => vel d sL i - vel d qL i) (zp l) (zs l) U (fun i Hi => entering_traction d l n sL qL i D U SL LsL LqL EL Hi)).
  assert (HR : forall i, (i < d)%nat -> traction d sL n i - traction d qR n i = - zp r * par d n (fun i => vel d sL i - vel d qR i) i + - zs r * perp d n (fun i => vel d sL i - vel d qR i) i).
  { intros i Hi. assert (X := entering_traction d r (neg n) sR qR i D U' SR LsR LqR ER Hi). cbv zeta in X. rewrite !traction_neg, par_neg, perp_neg in X. rewrite TC by auto.
    rewrite (par_ext d n (fun i => vel d sL i - vel d qR i) (fun i => vel d sR i - vel d qR i)), (perp_ext d n (fun i => vel d sL i - vel d qR i) (fun i => vel d sR i - vel d qR i)) by (auto; intros; rewrite VC by auto; reflexivity). lra. }
  assert (HR' := split_rel d n (fun i => traction d sL n i - traction d qR n i) (fun i => vel d sL i - vel d qR i) (- zp r) (- zs r) U HR). clear HR.
  intros i Hi. destruct (HL i Hi) as (A1 & A2). destruct (HR' i Hi) as (B1 & B2). rewrite !par_sub in A1, B1. rewrite !perp_sub in A2, B2.
  assert (ZL := zp_pos l SL). assert (ZR := zp_pos r SR). assert (YL := zs_pos l SL). assert (YR := zs_pos r SR).
  rewrite <- (par_perp d n (vel d sL) i), <- (par_perp d n (traction d sL n) i). unfold starV, starT. cbv zeta.
  set (vn := par d n (vel d sL) i) in *. set (vs := perp d n (vel d sL) i) in *. set (tn := par d n (traction d sL n) i) in *. set (ts := perp d n (traction d sL n) i) in *.
  set (vLn := par d n (vel d qL) i) in *. set (vRn := par d n (vel d qR) i) in *. set (tLn := par d n (traction d qL n) i) in *. set (tRn := par d n (traction d qR n) i) in *.
  set (vLs := perp d n (vel d qL) i) in *. set (vRs := perp d n (vel d qR) i) in *. set (tLs := perp d n (traction d qL n) i) in *. set (tRs := perp d n (traction d qR n) i) in *.
  assert (V1 : vn = (zp l * vLn + zp r * vRn + tRn - tLn) / (zp l + zp r)) by (apply Rmult_eq_reg_r with (zp l + zp r); [unfold Rdiv; rewrite Rmult_assoc, Rinv_l by lra; lra|lra]).
  assert (V2 : vs = (zs l * vLs + zs r * vRs + tRs - tLs) / (zs l + zs r)) by (apply Rmult_eq_reg_r with (zs l + zs r); [unfold Rdiv; rewrite Rmult_assoc, Rinv_l by lra; lra|lra]).
  split; [rewrite V1, V2; reflexivity|].
  assert (T1 : tn = tLn + zp l * (vn - vLn)) by lra. assert (T2 : ts = tLs + zs l * (vs - vLs)) by lra. rewrite T1, T2, V1, V2. field. split; lra.
Qed.

(** the interface seen from the other side *)
Lemma riemann_swap d l r n qL qR sL sR : dim d -> riemann d l r n qL qR sL sR -> riemann d r l (neg n) qR qL sR sL.
Proof.
  intros D (A & B & C & E & F & G). split; [auto|]. split; [auto|]. split; [auto|]. split; [|split].
  - destruct C as (wp & ws & L1 & L2 & E1 & E2 & E3). exists wp, ws. split; [auto|]. split; [auto|]. split; [auto|].
    assert (X : forall q, flux d l (neg (neg n)) q = flux d l n q).
    { intros q. apply (state_ext d); try apply mk_length; auto.
      - intros i j Hi Hj. rewrite !sig_flux, !dot_neg by auto. unfold strain, neg. field.
      - intros i Hi. rewrite !vel_flux, neg_neg by auto. reflexivity. }
    rewrite !X. auto.
  - intros i Hi. rewrite !traction_neg, F by auto. reflexivity.
  - intros i Hi. rewrite G by auto. reflexivity.
Qed.

Lemma vsub_vadd d q w : length q = nQt d -> length w = nQt d -> vsub (vadd q w) q = w.
Proof.
  intros A B. apply nth_ext with 0 0; [rewrite (len_vsub _ _ (nQt d)); auto using len_vadd|]. intros i Hi. rewrite nth_vsub, nth_vadd by (rewrite ?(len_vadd _ _ (nQt d)); auto; lia). ring.
Qed.

Lemma riemann_exists d l r n qL qR : dim d -> dot d n n = 1 -> solid l -> solid r -> length qL = nQt d -> length qR = nQt d -> exists sL sR, riemann d l r n qL qR sL sR.
Proof.
  intros D U SL SR LL LR. set (wL := fun i => starV d l r n qL qR i - vel d qL i). set (wR := fun i => starV d l r n qL qR i - vel d qR i).
  assert (U' : dot d (neg n) (neg n) = 1) by (rewrite dot_neg2; auto).
  exists (vadd qL (wave d l n wL)), (vadd qR (wave d r (neg n) wR)). assert (LW := fun m n w => wave_length d m n w D).
  assert (E1 : forall m n w q, length q = nQt d -> dot d n n = 1 -> solid m -> entering d m n (vsub (vadd q (wave d m n w)) q)).
  { intros m n0 w q L U0 SM. rewrite (vsub_vadd d) by auto. apply entering_wave; auto.
    symmetry. apply wave_ext; auto. intros. apply wave_vel; auto. }
  split; [apply len_vadd; auto|]. split; [apply len_vadd; auto|]. split; [apply E1; auto|]. split; [apply E1; auto|]. split.
  - intros i Hi. rewrite !traction_vadd by (rewrite LW; auto). rewrite wave_traction by auto.
    assert (X := wave_traction d r (neg n) wR i D Hi U' SR). rewrite traction_neg, par_neg, perp_neg in X.
    apply Rminus_diag_uniq. replace (traction d (wave d r (neg n) wR) n i) with (- (zp r * par d n wR i + zs r * perp d n wR i)) by lra. clear X.
    assert (PS : forall i, (i < d)%nat -> par d n (starV d l r n qL qR) i = (zp l * par d n (vel d qL) i + zp r * par d n (vel d qR) i + par d n (traction d qR n) i - par d n (traction d qL n) i) / (zp l + zp r) /\
      perp d n (starV d l r n qL qR) i = (zs l * perp d n (vel d qL) i + zs r * perp d n (vel d qR) i + perp d n (traction d qR n) i - perp d n (traction d qL n) i) / (zs l + zs r)).
    { intros k Hk. set (a := fun k => (zp l * par d n (vel d qL) k + zp r * par d n (vel d qR) k + par d n (traction d qR n) k - par d n (traction d qL n) k) / (zp l + zp r)).
      set (b := fun k => (zs l * perp d n (vel d qL) k + zs r * perp d n (vel d qR) k + perp d n (traction d qR n) k - perp d n (traction d qL n) k) / (zs l + zs r)).
      assert (Ea : forall k, a k = par d n (fun k => (zp l * vel d qL k + zp r * vel d qR k + traction d qR n k - traction d qL n k) / (zp l + zp r)) k).
      { intros k'. unfold a. symmetry. transitivity (par d n (fun k => / (zp l + zp r) * ((1 * (zp l * vel d qL k + zp r * vel d qR k)) + 1 * (1 * traction d qR n k + (-1) * traction d qL n k)) + 0 * 0) k').
        - unfold par. f_equal. apply dot_ext; auto. intros. unfold Rdiv. ring.
        - rewrite (par_lin d n (/ (zp l + zp r)) _ 0 (fun _ => 0)), !par_lin. rewrite (par_lin d n 1 (fun k => zp l * vel d qL k + zp r * vel d qR k) 1 (fun k => 1 * traction d qR n k + (-1) * traction d qL n k)) || idtac. rewrite ?par_lin. unfold Rdiv. ring. }
      assert (Eb : forall k, b k = perp d n (fun k => (zs l * vel d qL k + zs r * vel d qR k + traction d qR n k - traction d qL n k) / (zs l + zs r)) k).
      { intros k'. unfold b. symmetry. transitivity (perp d n (fun k => / (zs l + zs r) * ((1 * (zs l * vel d qL k + zs r * vel d qR k)) + 1 * (1 * traction d qR n k + (-1) * traction d qL n k)) + 0 * 0) k').
        - unfold perp. f_equal; [unfold Rdiv; ring|]. f_equal. apply dot_ext; auto. intros. unfold Rdiv. ring.
        - rewrite (perp_lin d n (/ (zs l + zs r)) _ 0 (fun _ => 0)), !perp_lin. unfold Rdiv. ring. }
      assert (Es : forall k, starV d l r n qL qR k = 1 * a k + 1 * b k) by (intros k'; unfold starV, a, b; cbv zeta; ring).
      rewrite (par_ext d n (starV d l r n qL qR) (fun k => 1 * a k + 1 * b k)), (perp_ext d n (starV d l r n qL qR) (fun k => 1 * a k + 1 * b k)) by auto. rewrite par_lin, perp_lin.
      set (f := fun k => (zp l * vel d qL k + zp r * vel d qR k + traction d qR n k - traction d qL n k) / (zp l + zp r)) in *.
      set (g := fun k => (zs l * vel d qL k + zs r * vel d qR k + traction d qR n k - traction d qL n k) / (zs l + zs r)) in *.
      rewrite (par_ext d n a (par d n f)), (perp_ext d n a (par d n f)), (par_ext d n b (perp d n g)), (perp_ext d n b (perp d n g)) by auto.
      rewrite par_par, perp_of_par, par_of_perp by auto. assert (X : perp d n (perp d n g) k = perp d n g k) by (unfold perp at 1; rewrite dot_perp by auto; ring). rewrite X, <- Ea, <- Eb.
      unfold a, b. split; ring. }
    destruct (PS i Hi) as (P1 & P2). unfold wL, wR. rewrite !par_sub, !perp_sub, P1, P2. rewrite <- (par_perp d n (traction d qL n) i), <- (par_perp d n (traction d qR n) i).
    assert (ZL := zp_pos l SL). assert (ZR := zp_pos r SR). assert (YL := zs_pos l SL). assert (YR := zs_pos r SR). field. split; lra.
  - intros i Hi. rewrite !vel_vadd by (rewrite LW; auto). rewrite !wave_vel by auto. unfold wL, wR. ring.
Qed.

Lemma entering_unique d m n q s s' : dim d -> dot d n n = 1 -> solid m -> length q = nQt d -> length s = nQt d -> length s' = nQt d ->
  entering d m n (vsub s q) -> entering d m n (vsub s' q) -> (forall i, (i < d)%nat -> vel d s i = vel d s' i) -> s = s'.
Proof.
  intros D U SM Lq Ls Ls' E E' V. apply entering_wave in E; auto using len_vsub. apply entering_wave in E'; auto using len_vsub.
  assert (X : vsub s q = vsub s' q).
  { rewrite E, E'. apply wave_ext; auto. intros i Hi. rewrite !vel_vsub by lia. rewrite V by auto. reflexivity. }
  apply nth_ext with 0 0; [lia|]. intros i Hi. assert (Y := f_equal (fun l => nth i l 0) X). cbv beta in Y. rewrite !nth_vsub in Y by lia. lra.
Qed.

Lemma riemann_unique d l r n qL qR sL sR sL' sR' : dim d -> dot d n n = 1 -> solid l -> solid r -> length qL = nQt d -> length qR = nQt d ->
  riemann d l r n qL qR sL sR -> riemann d l r n qL qR sL' sR' -> sL = sL' /\ sR = sR'.
Proof.
  intros D U SL SR LL LR H H'. assert (V := riemann_star d l r n qL qR sL sR D U SL SR LL LR H). assert (V' := riemann_star d l r n qL qR sL' sR' D U SL SR LL LR H').
  destruct H as (A & B & C & E & F & G). destruct H' as (A' & B' & C' & E' & F' & G'). assert (U' : dot d (neg n) (neg n) = 1) by (rewrite dot_neg2; auto). split.
  - apply (entering_unique d l n qL); auto. intros i Hi. rewrite (proj1 (V i Hi)), (proj1 (V' i Hi)). reflexivity.
  - apply (entering_unique d r (neg n) qR); auto. intros i Hi. rewrite <- G, <- G', (proj1 (V i Hi)), (proj1 (V' i Hi)) by auto. reflexivity.
Qed.

(** ** Free surfaces *)
Definition freeV (d : nat) (m : material) (n : nat -> R) (q : list R) (i : nat) : R :=
  vel d q i - par d n (traction d q n) i / zp m - perp d n (traction d q n) i / zs m.

Lemma free_star d m n q s : dim d -> dot d n n = 1 -> solid m -> length q = nQt d -> freeState d m n q s -> forall i, (i < d)%nat -> vel d s i = freeV d m n q i.
Proof.
  intros D U SM Lq (Ls & E & T) i Hi.
  assert (X := split_rel d n (fun i => traction d s n i - traction d q n i) (fun i => vel d s i - vel d q i) (zp m) (zs m) U (fun i Hi => entering_traction d m n s q i D U SM Ls Lq E Hi) i Hi).
  rewrite (par_ext d n _ (fun i => - traction d q n i)), (perp_ext d n (fun i => traction d s n i - traction d q n i) (fun i => - traction d q n i)) in X by (auto; intros; rewrite T by auto; ring).
  rewrite par_opp, perp_opp, par_sub, perp_sub in X. destruct X as (X1 & X2). unfold freeV. rewrite <- (par_perp d n (vel d s) i), <- (par_perp d n (vel d q) i).
  assert (Z := zp_pos m SM). assert (Y := zs_pos m SM).
  assert (V1 : par d n (vel d s) i = par d n (vel d q) i - par d n (traction d q n) i / zp m) by (apply Rmult_eq_reg_l with (zp m); [|lra]; field_simplify; [lra|lra]).
  assert (V2 : perp d n (vel d s) i = perp d n (vel d q) i - perp d n (traction d q n) i / zs m) by (apply Rmult_eq_reg_l with (zs m); [|lra]; field_simplify; [lra|lra]).
  rewrite V1, V2. ring.
Qed.

Lemma free_exists d m n q : dim d -> dot d n n = 1 -> solid m -> length q = nQt d -> exists s, freeState d m n q s.
Proof.
  intros D U SM Lq. set (w := fun i => freeV d m n q i - vel d q i). exists (vadd q (wave d m n w)). assert (LW := wave_length d m n w D).
  assert (Z := zp_pos m SM). assert (Y := zs_pos m SM).
  split; [apply len_vadd; auto|]. split.
  - rewrite (vsub_vadd d) by auto. apply entering_wave; auto. symmetry. apply wave_ext; auto. intros. apply wave_vel; auto.
  - intros i Hi. rewrite traction_vadd by lia. rewrite wave_traction by auto. set (t := traction d q n) in *.
    assert (W : forall i, (i < d)%nat -> w i = (- / zp m) * par d n t i + (- / zs m) * perp d n t i) by (intros; unfold w, freeV; fold t; field; split; lra).
    rewrite (par_ext d n w (fun i => (- / zp m) * par d n t i + (- / zs m) * perp d n t i)), (perp_ext d n w (fun i => (- / zp m) * par d n t i + (- / zs m) * perp d n t i)) by auto.
    rewrite par_lin, perp_lin, par_par, par_of_perp, perp_of_par by auto. assert (X : perp d n (perp d n t) i = perp d n t i) by (unfold perp at 1; rewrite dot_perp by auto; ring). rewrite X.
    rewrite <- (par_perp d n t i). field. split; lra.
Qed.

(** ** Flux of a state with given velocity and traction *)
Definition fluxVT (d : nat) (m : material) (n v t : nat -> R) : list R :=
  mk d (fun i j => - (lam m * dot d v n * delta i j + 2 * mu m * strain v n i j)) (fun i => - (t i / rho m)).

Lemma flux_VT d m n q v t : dim d -> (forall i, (i < d)%nat -> vel d q i = v i) -> (forall i, (i < d)%nat -> traction d q n i = t i) -> flux d m n q = fluxVT d m n v t.
Proof.
  intros D V T. assert (SY : forall v a b, - (lam m * dot d v n * delta a b + 2 * mu m * strain v n a b) = - (lam m * dot d v n * delta b a + 2 * mu m * strain v n b a)) by (intros; rewrite (delta_sym a b), (strain_sym _ _ a b); reflexivity).
  apply (state_ext d); try apply mk_length; auto.
  - intros i j Hi Hj. unfold flux, fluxVT. rewrite !sig_mk by auto. rewrite (dot_ext d (vel d q) n v n) by auto. unfold strain. rewrite !V by auto. reflexivity.
  - intros i Hi. unfold flux, fluxVT. rewrite !vel_mk by auto. rewrite T by auto. reflexivity.
Qed.

(** ** Energy *)
Lemma energy_flux d m n q q' : dim d -> solid m -> energy2 d m q (flux d m n q') = - (dot d (traction d q' n) (vel d q) + dot d (traction d q n) (vel d q')).
Proof.
  intros D SM. assert (RP : 0 < rho m) by apply SM. assert (MP : 0 < mu m) by apply SM. assert (LP : INR d * lam m + 2 * mu m <> 0) by (destruct SM as (? & ? & ?); destruct D as [-> | ->]; cbn; lra).
  assert (SK : sum d (fun k => sig d (flux d m n q') k k) = - ((INR d * lam m + 2 * mu m) * dot d (vel d q') n)).
  { rewrite (sum_ext d _ (fun k => - lam m * dot d (vel d q') n * 1 + - 2 * mu m * (vel d q' k * n k))) by (intros k Hk; rewrite sig_flux by auto; unfold delta, strain; rewrite Nat.eqb_refl; field).
    rewrite sum_add, !sum_scal. fold (dot d (vel d q') n). assert (X : sum d (fun _ => 1) = INR d) by (destruct D as [-> | ->]; cbv [sum seq fold_left INR]; ring). rewrite X. ring. }
  assert (CO : forall i j, (i < d)%nat -> (j < d)%nat -> compliance d m (flux d m n q') i j = - strain (vel d q') n i j).
  { intros i j Hi Hj. unfold compliance. rewrite SK, sig_flux by auto. field. split; [exact LP|lra]. }
  unfold energy2. rewrite (sum_ext d (fun i => sum d (fun j => sig d q i j * compliance d m (flux d m n q') i j)) (fun i => sum d (fun j => - / 2 * (sig d q i j * n j * vel d q' i) + - / 2 * (sig d q i j * n i * vel d q' j)))).
  2:{ intros i Hi. apply sum_ext. intros j Hj. rewrite CO by auto. unfold strain. field. }
  rewrite (sum_ext d _ (fun i => - / 2 * (traction d q n i * vel d q' i) + - / 2 * sum d (fun j => sig d q i j * n i * vel d q' j))).
  2:{ intros i Hi. rewrite sum_add, !sum_scal. f_equal. f_equal. unfold traction. rewrite Rmult_comm, <- sum_scal. apply sum_ext. intros. ring. }
  rewrite sum_add, !sum_scal. rewrite (sum_swap d d (fun i j => sig d q i j * n i * vel d q' j)).
  rewrite (sum_ext d (fun j => sum d (fun i => sig d q i j * n i * vel d q' j)) (fun j => traction d q n j * vel d q' j)).
  2:{ intros j Hj. unfold traction. rewrite (Rmult_comm (sum d _)), <- sum_scal. apply sum_ext. intros i Hi. rewrite (sig_sym d q i j) by auto. ring. }
  fold (dot d (traction d q n) (vel d q')). unfold dot at 1. rewrite (sum_ext d (fun i => vel d q i * vel d (flux d m n q') i) (fun i => - / rho m * (traction d q' n i * vel d q i))).
  2:{ intros i Hi. rewrite vel_flux by auto. field. lra. }
  rewrite sum_scal. fold (dot d (traction d q' n) (vel d q)). field. lra.
Qed.

(** rate of working of entering waves *)
Lemma dot_par_perp d n v w : dot d n n = 1 -> dot d (par d n v) (perp d n w) = 0.
Proof.
  intros U. unfold dot. rewrite (sum_ext d _ (fun i => dot d v n * (perp d n w i * n i))) by (intros; unfold par; ring).
  rewrite sum_scal. fold (dot d (perp d n w) n). rewrite dot_perp by auto. ring.
Qed.
Lemma dot_comm d v w : dot d v w = dot d w v.
Proof. apply sum_ext. intros. ring. Qed.
Lemma dot_self d v : 0 <= dot d v v.
Proof. apply sum_nonneg. intros. apply Rle_0_sqr. Qed.

Lemma entering_work d m n s q : dim d -> dot d n n = 1 -> solid m -> length s = nQt d -> length q = nQt d -> entering d m n (vsub s q) ->
  0 <= dot d (fun i => traction d s n i - traction d q n i) (fun i => vel d s i - vel d q i).
Proof.
  intros D U SM Ls Lq E. set (w := fun i => vel d s i - vel d q i).
  rewrite (dot_ext d _ w (fun i => zp m * par d n w i + zs m * perp d n w i) (fun i => 1 * par d n w i + 1 * perp d n w i)).
  - rewrite dot_lin. rewrite (dot_comm d (par d n w)), (dot_comm d (perp d n w)), !dot_lin. rewrite (dot_comm d (perp d n w) (par d n w)), dot_par_perp by auto.
    assert (Z := zp_pos m SM). assert (Y := zs_pos m SM). assert (A := dot_self d (par d n w)). assert (B := dot_self d (perp d n w)). nra.
  - intros i Hi. exact (entering_traction d m n s q i D U SM Ls Lq E Hi).
  - intros i Hi. rewrite <- (par_perp d n w i). ring.
Qed.

Lemma loss_star d m n q s : dim d -> solid m -> loss d m n q (flux d m n s) =
  dot d (fun i => traction d s n i - traction d q n i) (fun i => vel d s i - vel d q i) - dot d (traction d s n) (vel d s).
Proof.
  intros D SM. unfold loss. rewrite !energy_flux by auto.
  assert (X : dot d (fun i => traction d s n i - traction d q n i) (fun i => vel d s i - vel d q i) = dot d (traction d s n) (vel d s) - dot d (traction d s n) (vel d q) - dot d (traction d q n) (vel d s) + dot d (traction d q n) (vel d q)).
  { unfold dot. rewrite <- !sum_sub, <- sum_add. apply sum_ext. intros. ring. }
  rewrite X. field.
Qed.

Lemma riemann_loss d l r n qL qR sL sR : dim d -> dot d n n = 1 -> solid l -> solid r -> length qL = nQt d -> length qR = nQt d -> riemann d l r n qL qR sL sR ->
  0 <= loss d l n qL (flux d l n sL) + loss d r (neg n) qR (flux d r (neg n) sR).
Proof.
  intros D U SL SR LL LR (A & B & C & E & F & G). assert (U' : dot d (neg n) (neg n) = 1) by (rewrite dot_neg2; auto).
  rewrite !loss_star by auto. assert (X := entering_work d l n sL qL D U SL A LL C). assert (Y := entering_work d r (neg n) sR qR D U' SR B LR E).
  assert (Z : dot d (traction d sR (neg n)) (vel d sR) = - dot d (traction d sL n) (vel d sL)).
  { unfold dot. rewrite <- (Rmult_1_l (sum d (fun i => traction d sL n i * vel d sL i))), <- Ropp_mult_distr_l_reverse, <- sum_scal. apply sum_ext. intros i Hi. rewrite traction_neg, F, G by auto. ring. }
  rewrite Z. lra.
Qed.

Lemma free_loss d m n q s : dim d -> dot d n n = 1 -> solid m -> length q = nQt d -> freeState d m n q s -> 0 <= loss d m n q (flux d m n s).
Proof.
  intros D U SM L (A & B & C). rewrite loss_star by auto. assert (X := entering_work d m n s q D U SM A L B).
  assert (Z : dot d (traction d s n) (vel d s) = 0) by (apply sum_zero; intros i Hi; rewrite C by auto; ring). lra.
Qed.

(** the energy is positive *)
Lemma energy_pos d m q : dim d -> solid m -> length q = nQt d -> 0 <= energy2 d m q q /\ (energy2 d m q q = 0 -> q = zeros (nQt d)).
Proof.
  intros D SM L. assert (RP : 0 < rho m) by apply SM. assert (MP : 0 < mu m) by apply SM. destruct SM as (_ & _ & LP).
  set (tr := sum d (fun k => sig d q k k)). set (e := tr / INR d).
  assert (ID : 0 < INR d) by (destruct D as [-> | ->]; cbn; lra).
  (* deviator and mean *)
  set (dev := fun i j => sig d q i j - e * delta i j).
  assert (LP' : 0 < INR d * lam m + 2 * mu m) by (destruct D as [-> | ->]; cbn; lra).
  assert (EN : energy2 d m q q = rho m * dot d (vel d q) (vel d q) + sum d (fun i => sum d (fun j => dev i j * dev i j)) / (2 * mu m) + tr * tr / (INR d * (INR d * lam m + 2 * mu m))).
  { unfold energy2. rewrite Rplus_assoc. f_equal.
    assert (T1 : sum d (fun i => sum d (fun j => sig d q i j * compliance d m q i j)) = / (2 * mu m) * (sum d (fun i => sum d (fun j => sig d q i j * sig d q i j)) - lam m / (INR d * lam m + 2 * mu m) * tr * tr)).
    { transitivity (sum d (fun i => / (2 * mu m) * (sum d (fun j => sig d q i j * sig d q i j) - lam m / (INR d * lam m + 2 * mu m) * tr * sig d q i i))).
      - apply sum_ext. intros i Hi. rewrite <- (sum_delta d i (fun j => sig d q i j) Hi). rewrite <- sum_scal, <- sum_sub, <- sum_scal. apply sum_ext. intros j Hj. unfold compliance. fold tr. field. split; lra.
      - rewrite sum_scal, sum_sub, sum_scal. reflexivity. }
    assert (T2 : sum d (fun i => sum d (fun j => dev i j * dev i j)) = sum d (fun i => sum d (fun j => sig d q i j * sig d q i j)) - 2 * e * tr + e * e * INR d).
    { transitivity (sum d (fun i => (sum d (fun j => sig d q i j * sig d q i j) - 2 * e * sig d q i i) + e * e * 1)).
      - apply sum_ext. intros i Hi. rewrite <- (sum_delta d i (fun j => sig d q i j) Hi). transitivity (sum d (fun j => (sig d q i j * sig d q i j - 2 * e * (delta i j * sig d q i j)) + e * e * (delta i j * 1))).
        + apply sum_ext. intros j Hj. unfold dev. assert (delta i j * delta i j = delta i j) by (unfold delta; destruct (i =? j)%nat; ring). replace (delta i j * 1) with (delta i j * delta i j) by lra. ring.
        + rewrite sum_add, sum_sub, !sum_scal. f_equal. f_equal. apply sum_delta; auto.
      - rewrite sum_add, sum_sub, !sum_scal. f_equal. f_equal. destruct D as [-> | ->]; cbv [sum seq fold_left INR]; ring. }
    rewrite T1, T2. unfold e. field. split; [|split]; lra. }
  assert (N1 : 0 <= dot d (vel d q) (vel d q)) by apply dot_self.
  assert (N2 : 0 <= sum d (fun i => sum d (fun j => dev i j * dev i j))) by (apply sum_nonneg; intros; apply sum_nonneg; intros; apply Rle_0_sqr).
  assert (N3 : 0 <= tr * tr / (INR d * (INR d * lam m + 2 * mu m))) by (apply Rmult_le_pos; [apply Rle_0_sqr|left; apply Rinv_0_lt_compat, Rmult_lt_0_compat; auto]).
  assert (N2' : 0 <= sum d (fun i => sum d (fun j => dev i j * dev i j)) / (2 * mu m)) by (apply Rmult_le_pos; [auto|left; apply Rinv_0_lt_compat; lra]).
  split; [rewrite EN; assert (0 <= rho m * dot d (vel d q) (vel d q)) by (apply Rmult_le_pos; lra); lra|].
  intros Z. rewrite EN in Z. assert (0 <= rho m * dot d (vel d q) (vel d q)) by (apply Rmult_le_pos; lra).
  assert (Z1 : dot d (vel d q) (vel d q) = 0) by (assert (rho m * dot d (vel d q) (vel d q) = 0) by lra; nra).
  assert (Z2 : sum d (fun i => sum d (fun j => dev i j * dev i j)) = 0).
  { assert (Y : sum d (fun i => sum d (fun j => dev i j * dev i j)) / (2 * mu m) = 0) by lra. apply Rmult_eq_reg_r with (/ (2 * mu m)); [|apply Rinv_neq_0_compat; lra]. unfold Rdiv in Y. rewrite Y. ring. }
  assert (Z3 : tr = 0).
  { assert (Y : tr * tr / (INR d * (INR d * lam m + 2 * mu m)) = 0) by lra. assert (0 < / (INR d * (INR d * lam m + 2 * mu m))) by (apply Rinv_0_lt_compat, Rmult_lt_0_compat; auto). unfold Rdiv in Y. assert (tr * tr = 0) by nra. nra. }
  assert (SZ : forall n f, (forall i, 0 <= f i) -> sum n f = 0 -> forall i, (i < n)%nat -> f i = 0).
  { clear. induction n as [|n IH]; intros f P S i Hi; [lia|]. rewrite sum_S in S. assert (0 <= sum n f) by (apply sum_nonneg; auto). assert (0 <= f n) by auto.
    destruct (Nat.eq_dec i n) as [->|N]; [lra|]. apply IH; auto; [lra|lia]. }
  assert (ZR : forall i, nth i (zeros (nQt d)) 0 = 0) by (intros i; unfold zeros; destruct (Nat.lt_ge_cases i (nQt d)); [apply nth_repeat|apply nth_overflow; rewrite repeat_length; auto]).
  apply (state_ext d); auto; [apply repeat_length| |].
  - intros i j Hi Hj. unfold sig at 2. rewrite ZR. assert (P := SZ d _ (fun i => sum_nonneg d (fun j => dev i j * dev i j) (fun j _ => Rle_0_sqr (dev i j))) Z2 i Hi). cbv beta in P.
    assert (P' := SZ d _ (fun j => Rle_0_sqr (dev i j)) P j Hj). apply Rsqr_0_uniq in P'. unfold dev, e in P'. rewrite Z3 in P'. unfold Rdiv in P'. lra.
  - intros i Hi. unfold vel at 2. rewrite ZR. assert (P := SZ d _ (fun i => Rle_0_sqr (vel d q i)) Z1 i Hi). apply Rsqr_0_uniq in P. exact P.
Qed.
