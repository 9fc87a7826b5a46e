(** Property C09: advancing by [T] advances every time group by exactly [T]. *)
From Verif Require Import Util TimeGroup.
From Coq Require Import QArith Qround Lqa.
From Verif Require SchedModel Props_Sched.
Open Scope nat_scope.

Lemma dbl_pow n : dbl n = 2 ^ n.
Proof. induction n as [|n IH]; [reflexivity|]. unfold dbl in *. change (Nat.iter n (fun m => m * 2) 1 * 2 = 2 ^ S n). rewrite IH, Nat.pow_succ_r'. lia. Qed.

Lemma dbl_pos n : 1 <= dbl n.
Proof. rewrite dbl_pow. pose proof (Nat.pow_nonzero 2 n). lia. Qed.

Lemma Qnat_add a b : (Qnat (a + b) == Qnat a + Qnat b)%Q.
Proof. unfold Qnat. rewrite Nat2Z.inj_add, inject_Z_plus. reflexivity. Qed.
Lemma Qnat_mul a b : (Qnat (a * b) == Qnat a * Qnat b)%Q.
Proof. unfold Qnat. rewrite Nat2Z.inj_mul, inject_Z_mult. reflexivity. Qed.
Lemma Qnat_pos n : 1 <= n -> (0 < Qnat n)%Q.
Proof. intros H. unfold Qnat. change 0%Q with (inject_Z 0). rewrite <- Zlt_Qlt. lia. Qed.
Lemma Qnat_nonneg n : (0 <= Qnat n)%Q.
Proof. unfold Qnat. change 0%Q with (inject_Z 0). rewrite <- Zle_Qle. lia. Qed.

(** the number of full time steps of the largest group that fit into [T] *)
Lemma full_spec (T D : Q) : (0 <= T)%Q -> (0 < D)%Q -> let n := Z.to_nat (Qfloor (T / D)) in
  (Qnat n * D <= T)%Q /\ (T < (Qnat n + 1) * D)%Q.
Proof.
  intros HT HD n. set (z := Qfloor (T / D)).
  assert (Z0 : (0 <= z)%Z).
  { unfold z. change 0%Z with (Qfloor 0). apply Qfloor_resp_le. apply Qle_shift_div_l; [exact HD|]. lra. }
  assert (E : Qnat n = inject_Z z). { unfold Qnat, n. fold z. now rewrite Z2Nat.id. }
  rewrite E. pose proof (Qfloor_le (T / D)) as L. pose proof (Qlt_floor (T / D)) as U. fold z in L, U.
  assert (TD : (T == (T / D) * D)%Q). { field. lra. }
  split.
  - rewrite TD. apply Qmult_le_compat_r; [exact L|lra].
  - rewrite TD at 1. rewrite inject_Z_plus in U. apply Qmult_lt_compat_r; [exact HD|exact U].
Qed.

(** ** Specification *)

(** [n] is the number of whole steps of length [D] within [T] *)
Definition whole_steps (T D : Q) (n : nat) : Prop := (Qnat n * D <= T)%Q /\ (T < (Qnat n + 1) * D)%Q.

Section Group.
  Context (nTgs tgId : nat) (Hid : tgId < nTgs).
  Context (dt T : Q) (Hdt : (0 < dt)%Q) (HT : (0 <= T)%Q).
  (** any time group in any state (e.g. after previous intervals) *)
  Context (t0 : tgt) (H1 : funMul t0 = dbl tgId) (H2 : maxDiv' t0 = dbl (nTgs - (tgId + 1))).

  Let st n := Nat.iter n updateTsInfo (setUp dt T t0).
  Let D := (dt * Qnat (2 ^ (nTgs - 1)))%Q.
  Let nM := Z.to_nat (Qfloor (T / (dt * Qnat (funMul t0 * maxDiv' t0)))).
  Let md := 2 ^ (nTgs - 1 - tgId).

  Lemma st_S n : st (S n) = updateTsInfo (st n).
  Proof. reflexivity. Qed.

  Lemma mul_all : funMul t0 * maxDiv' t0 = 2 ^ (nTgs - 1).
  Proof. rewrite H1, H2, !dbl_pow, <- Nat.pow_add_r. f_equal. lia. Qed.
  Lemma md_eq : maxDiv' t0 = md.
  Proof. unfold md. rewrite H2, dbl_pow. f_equal. lia. Qed.

  Lemma D_pos : (0 < D)%Q.
  Proof. unfold D. apply Qmult_lt_0_compat; [exact Hdt|]. apply Qnat_pos. pose proof (Nat.pow_nonzero 2 (nTgs - 1)). lia. Qed.

  Lemma nM_whole : whole_steps T D nM.
  Proof. unfold nM. rewrite mul_all. apply full_spec; [exact HT|exact D_pos]. Qed.

  Let sync := ((T - Qnat nM * D) / Qnat md)%Q.

  Lemma md_pos : 1 <= md.
  Proof. unfold md. pose proof (Nat.pow_nonzero 2 (nTgs - 1 - tgId)). lia. Qed.

  Lemma sync_bounds : (0 <= sync)%Q /\ (sync < dt * Qnat (2 ^ tgId))%Q /\ (sync * Qnat md == T - Qnat nM * D)%Q.
  Proof.
    destruct nM_whole as [A B]. pose proof (Qnat_pos md md_pos) as P. unfold sync. repeat split.
    - apply Qle_shift_div_l; [exact P|]. lra.
    - apply Qlt_shift_div_r; [exact P|].
      assert (E : (dt * Qnat (2 ^ tgId) * Qnat md == D)%Q).
      { unfold D, md. rewrite <- Qmult_assoc, <- Qnat_mul, <- Nat.pow_add_r. replace (tgId + (nTgs - 1 - tgId)) with (nTgs - 1) by lia. reflexivity. }
      rewrite E. lra.
    - field. lra.
  Qed.

  Lemma st_const n : funMul (st n) = funMul t0 /\ maxDiv' (st n) = md /\ nTsReqFull (st n) = nM * md /\
    (dtFull (st n) = dt * Qnat (2 ^ tgId))%Q /\ (dtSync (st n) == sync)%Q /\ nTsSync (st n) = n /\ nTsPer (st n) = nTsPer t0 + n.
  Proof.
    induction n as [|n (E1 & E2 & E3 & E4 & E5 & E6 & E7)].
    - unfold st. cbn [Nat.iter nat_rect setUp setDt funMul maxDiv' nTsReqFull dtFull dtSync nTsSync nTsPer]. fold nM. rewrite mul_all, md_eq. fold D. rewrite H1, dbl_pow. repeat (split; [reflexivity|]). split; [|split; [reflexivity|symmetry; apply Nat.add_0_r]].
      destruct sync_bounds as (S1 & _). destruct (Qle_bool 0 _) eqn:Q; [reflexivity|].
      exfalso. apply not_true_iff_false in Q. apply Q. apply Qle_bool_iff. exact S1.
    - rewrite st_S. cbn [updateTsInfo setDt funMul maxDiv' nTsReqFull dtFull dtSync nTsSync nTsPer]. rewrite E1, E2, E3, E4, E6, E7. repeat (split; [reflexivity|]). split; [exact E5|split; [reflexivity|]]. lia.
  Qed.

  Lemma st_dt n : dtCur (st n) = if n <? nM * md then dtFull (st n) else dtSync (st n).
  Proof.
    destruct (st_const n) as (_ & _ & E3 & _ & _ & E6 & _).
    assert (X : exists y, st n = setDt y) by (destruct n; eexists; reflexivity). destruct X as [y Y].
    rewrite Y in E3, E6 |- *. cbn [setDt nTsSync nTsReqFull dtCur dtFull dtSync] in *. now rewrite E3, E6.
  Qed.

  (** ** C09, one group *)

  Lemma cov_full n : n <= nM * md -> (covSim (st n) == covSim t0 + Qnat n * (dt * Qnat (2 ^ tgId)))%Q.
  Proof.
    induction n as [|n IH]; intros H; [change (covSim (st 0)) with (covSim t0); change (Qnat 0) with 0%Q; ring|].
    rewrite st_S. cbn [updateTsInfo setDt covSim]. rewrite IH by lia. rewrite st_dt.
    replace (n <? nM * md) with true by lia. destruct (st_const n) as (_ & _ & _ & -> & _).
    replace (S n) with (n + 1) by lia. rewrite Qnat_add. change (Qnat 1) with 1%Q. ring.
  Qed.

  Lemma cov_sync k : (covSim (st (nM * md + k)) == covSim t0 + Qnat (nM * md) * (dt * Qnat (2 ^ tgId)) + Qnat k * sync)%Q.
  Proof.
    induction k as [|k IH]; [rewrite Nat.add_0_r, cov_full by lia; cbn; change (Qnat 0) with 0%Q; ring|].
    replace (nM * md + S k) with (S (nM * md + k)) by lia.
    rewrite st_S. cbn [updateTsInfo setDt covSim]. rewrite IH. rewrite st_dt.
    replace (nM * md + k <? nM * md) with false by lia. destruct (st_const (nM * md + k)) as (_ & _ & _ & _ & -> & _).
    replace (S k) with (k + 1) by lia. rewrite Qnat_add. change (Qnat 1) with 1%Q. ring.
  Qed.

  Lemma full_time : (Qnat (nM * md) * (dt * Qnat (2 ^ tgId)) == Qnat nM * D)%Q.
  Proof.
    rewrite Qnat_mul. unfold D, md.
    transitivity (Qnat nM * (dt * (Qnat (2 ^ tgId) * Qnat (2 ^ (nTgs - 1 - tgId)))))%Q; [ring|].
    rewrite <- Qnat_mul, <- Nat.pow_add_r. replace (tgId + (nTgs - 1 - tgId)) with (nTgs - 1) by lia. reflexivity.
  Qed.

  Lemma fin_iff n : finishedT (st n) = true <-> n = (nM + 1) * md.
  Proof.
    unfold finishedT. destruct (st_const n) as (_ & -> & -> & _ & _ & -> & _). rewrite Nat.eqb_eq. lia.
  Qed.

  Lemma cov_end : (covSim (st ((nM + 1) * md)) == covSim t0 + T)%Q.
  Proof.
    replace ((nM + 1) * md) with (nM * md + md) by lia. rewrite cov_sync, full_time.
    destruct sync_bounds as (_ & _ & S3). rewrite (Qmult_comm (Qnat md)), S3. ring.
  Qed.

  Lemma advance_st fuel n : n <= (nM + 1) * md -> (nM + 1) * md <= n + fuel -> advance fuel (st n) = Some (st ((nM + 1) * md)).
  Proof.
    revert n. induction fuel as [|f IH]; intros n A B; cbn [advance].
    - assert (n = (nM + 1) * md) as -> by lia. now rewrite (proj2 (fin_iff _) eq_refl).
    - destruct (finishedT (st n)) eqn:F.
      + apply fin_iff in F. now rewrite F.
      + rewrite <- st_S. apply IH; [|lia]. assert (n <> (nM + 1) * md) by (intros ->; rewrite (proj2 (fin_iff _) eq_refl) in F; discriminate). lia.
  Qed.
End Group.

(** a time group, possibly after any number of synchronization intervals *)
Inductive reachable (nTgs tgId : nat) (big : Q) : tgt -> Prop :=
| r_new : reachable nTgs tgId big (tg_new nTgs tgId big)
| r_setUp dt T t : reachable nTgs tgId big t -> reachable nTgs tgId big (setUp dt T t)
| r_update t : reachable nTgs tgId big t -> reachable nTgs tgId big (updateTsInfo t).

Lemma reachable_mul nTgs tgId big t : reachable nTgs tgId big t -> funMul t = dbl tgId /\ maxDiv' t = dbl (nTgs - (tgId + 1)).
Proof. induction 1; cbn; auto. Qed.

(** Setting up any time group and updating until finished takes exactly (nFull+1) * 2^(nTgs-1-id) updates, where nFull is the
    number of whole steps of the largest group within [T]; it then has covered exactly [T] more; every time step on the way
    is non-negative and at most the full time step 2^id * dt. *)
Theorem C09_advance_exactly nTgs tgId big t dt T : tgId < nTgs -> reachable nTgs tgId big t -> (0 < dt)%Q -> (0 <= T)%Q ->
  exists nFull t', whole_steps T (dt * Qnat (2 ^ (nTgs - 1))) nFull /\
    let N := (nFull + 1) * 2 ^ (nTgs - 1 - tgId) in
    (forall fuel, N <= fuel -> advance fuel (setUp dt T t) = Some t') /\
    nTsSync t' = N /\ nTsPer t' = nTsPer t + N /\
    (covSim t' == covSim t + T)%Q /\
    forall n, n < N -> let s := Nat.iter n updateTsInfo (setUp dt T t) in
      finishedT s = false /\ (lastTimeStepT s = true <-> n = N - 1) /\
      (0 <= dtCur s)%Q /\ (dtCur s <= dt * Qnat (2 ^ tgId))%Q.
Proof.
  intros Hid R Hdt HT. destruct (reachable_mul _ _ _ _ R) as [H1 H2].
  set (nM := Z.to_nat (Qfloor (T / (dt * Qnat (funMul t * maxDiv' t))))). exists nM.
  set (N := (nM + 1) * 2 ^ (nTgs - 1 - tgId)). exists (Nat.iter N updateTsInfo (setUp dt T t)).
  split; [apply (nM_whole nTgs tgId); assumption|]. cbv zeta.
  pose proof (st_const nTgs tgId Hid dt T Hdt HT t H1 H2) as SC.
  destruct (SC N) as (_ & _ & _ & _ & _ & C6 & C7). repeat split; auto.
  - intros fuel F. apply (advance_st nTgs tgId Hid dt T Hdt HT t H1 H2 fuel 0); [lia|exact F].
  - apply (cov_end nTgs tgId Hid dt T Hdt HT t H1 H2).
  - apply not_true_iff_false. intros F. apply (fin_iff nTgs tgId Hid dt T Hdt HT t H1 H2) in F. fold nM in F. unfold N in H. lia.
  - unfold lastTimeStepT. destruct (SC n) as (_ & -> & -> & _ & _ & -> & _). fold nM. rewrite Nat.eqb_eq. unfold N in *. lia.
  - intros ->. unfold lastTimeStepT. destruct (SC (N - 1)) as (_ & -> & -> & _ & _ & -> & _). fold nM. rewrite Nat.eqb_eq. unfold N in *. lia.
  - rewrite (st_dt nTgs tgId Hid dt T Hdt HT t H1 H2). destruct (SC n) as (_ & _ & _ & -> & E5 & _).
    destruct (n <? _).
    + apply Qmult_le_0_compat; [lra|apply Qnat_nonneg].
    + rewrite E5. apply (sync_bounds nTgs tgId Hid dt T Hdt HT t H1 H2).
  - rewrite (st_dt nTgs tgId Hid dt T Hdt HT t H1 H2). destruct (SC n) as (_ & _ & _ & -> & E5 & _).
    destruct (n <? _).
    + lra.
    + rewrite E5. apply Qlt_le_weak. apply (sync_bounds nTgs tgId Hid dt T Hdt HT t H1 H2).
Qed.

(** The number of updates is the one of the scheduler's theorems (C01, C04) for this number of whole steps. *)
Remark count_of_scheduler nTgs tgId w nFull :
  (nFull + 1) * 2 ^ (nTgs - 1 - tgId) = Props_Sched.spec_steps (SchedModel.mkCfg nTgs w nFull) tgId.
Proof. reflexivity. Qed.

(** Groups which started at the same time and are at the same tick (multiple of the smallest step) within an interval are at
    the same simulated time, also during the shortened steps at the end of the interval. *)
Theorem C09_same_time nTgs g h big big' tg th dt T n m : g < nTgs -> h < nTgs ->
  reachable nTgs g big tg -> reachable nTgs h big' th -> (covSim tg == covSim th)%Q -> (0 < dt)%Q -> (0 <= T)%Q ->
  n * 2 ^ g = m * 2 ^ h ->
  (covSim (Nat.iter n updateTsInfo (setUp dt T tg)) == covSim (Nat.iter m updateTsInfo (setUp dt T th)))%Q.
Proof.
  intros Hg Hh Rg Rh EC Hdt HT E.
  destruct (reachable_mul _ _ _ _ Rg) as [G1 G2]. destruct (reachable_mul _ _ _ _ Rh) as [K1 K2].
  set (nM := Z.to_nat (Qfloor (T / (dt * Qnat (2 ^ (nTgs - 1)))))).
  assert (X : forall id t k, id < nTgs -> funMul t = dbl id -> maxDiv' t = dbl (nTgs - (id + 1)) ->
     (covSim (Nat.iter k updateTsInfo (setUp dt T t)) ==
      covSim t + if (k * 2 ^ id <=? nM * 2 ^ (nTgs - 1)) then Qnat (k * 2 ^ id) * dt
      else Qnat nM * (dt * Qnat (2 ^ (nTgs - 1))) + Qnat (k * 2 ^ id - nM * 2 ^ (nTgs - 1)) *
           ((T - Qnat nM * (dt * Qnat (2 ^ (nTgs - 1)))) / Qnat (2 ^ (nTgs - 1))))%Q).
  { intros id t k Hid F1 F2.
    pose proof (mul_all nTgs id Hid dt T t F1 F2) as MA.
    set (md := 2 ^ (nTgs - 1 - id)).
    assert (P1 : 1 <= 2 ^ id) by (pose proof (Nat.pow_nonzero 2 id); lia).
    assert (P2 : 1 <= md) by (unfold md; pose proof (Nat.pow_nonzero 2 (nTgs - 1 - id)); lia).
    assert (PW : 2 ^ (nTgs - 1) = md * 2 ^ id). { unfold md. rewrite <- Nat.pow_add_r. f_equal. lia. }
    destruct (Nat.leb_spec (k * 2 ^ id) (nM * 2 ^ (nTgs - 1))) as [L|L].
    - rewrite PW, Nat.mul_assoc in L. apply Nat.mul_le_mono_pos_r in L; [|lia].
      pose proof (cov_full nTgs id Hid dt T Hdt HT t F1 F2 k) as CF. rewrite MA in CF. rewrite CF by exact L.
      rewrite Qnat_mul. ring.
    - rewrite PW, Nat.mul_assoc in L. apply Nat.mul_lt_mono_pos_r in L; [|lia].
      pose proof (cov_sync nTgs id Hid dt T Hdt HT t F1 F2 (k - nM * md)) as CF.
      pose proof (full_time nTgs id Hid dt T t) as FT. rewrite MA in CF, FT. fold nM md in CF, FT.
      replace (nM * md + (k - nM * md)) with k in CF by lia. rewrite CF, (FT F1 F2).
      rewrite PW. replace (k * 2 ^ id - nM * (md * 2 ^ id)) with ((k - nM * md) * 2 ^ id) by nia.
      rewrite !Qnat_mul. pose proof (Qnat_pos _ P1) as Q1. pose proof (Qnat_pos _ P2) as Q2.
      field. split; intros Z; [rewrite Z in Q1|rewrite Z in Q2]; lra. }
  rewrite (X g tg n Hg G1 G2), (X h th m Hh K1 K2), E, EC. reflexivity.
Qed.

(** 3 groups, dt = 1/4, T = 27/10: group 1 makes 2 * 2 full steps and 2 of 7/20 *)
Example C09_ex : let t := Nat.iter 4 updateTsInfo (setUp (1#4) (27#10) (tg_new 3 1 1)) in
  advance 10 (setUp (1#4) (27#10) (tg_new 3 1 1)) = Some (Nat.iter 6 updateTsInfo (setUp (1#4) (27#10) (tg_new 3 1 1))) /\
  (dtCur t == 7#20)%Q /\ (covSim (Nat.iter 2 updateTsInfo t) == 27#10)%Q.
Proof. vm_compute. repeat split; reflexivity. Qed.

Print Assumptions C09_advance_exactly.
Print Assumptions C09_same_time.
