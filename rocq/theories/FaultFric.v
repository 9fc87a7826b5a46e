(** Proofs about the states on both sides of a fault: existence, uniqueness. *)
From Coq Require Import List Arith Bool Lia Reals Lra Field.
From Verif Require Import Util ElSpec ElWave ElFace FaultSpec.
Import ListNotations.
Open Scope R_scope.

Lemma norm_sqr d v : norm d v * norm d v = dot d v v.
Proof. unfold norm. apply sqrt_sqrt, dot_self. Qed.
Lemma norm_pos d v : 0 <= norm d v.
Proof. apply sqrt_pos. Qed.
Lemma norm_ext d v w : (forall i, (i < d)%nat -> v i = w i) -> norm d v = norm d w.
Proof. intros H. unfold norm. f_equal. apply dot_ext; assumption. Qed.
Lemma norm_scal d c v : norm d (fun i => c * v i) = Rabs c * norm d v.
Proof.
  unfold norm. assert (E : dot d (fun i => c * v i) (fun i => c * v i) = c * c * dot d v v) by (unfold dot; rewrite <- sum_scal; apply sum_ext; intros; ring).
  rewrite E, sqrt_mult_alt by apply Rle_0_sqr. f_equal. apply sqrt_Rsqr_abs.
Qed.
Lemma norm_zero d v : (forall i, (i < d)%nat -> v i = 0) -> norm d v = 0.
Proof. intros H. unfold norm. replace (dot d v v) with 0; [apply sqrt_0|]. unfold dot. symmetry. apply sum_zero. intros. rewrite H by assumption. ring. Qed.
Lemma sum_sq_zero n f i : (forall i, (i < n)%nat -> 0 <= f i) -> sum n f = 0 -> (i < n)%nat -> f i = 0.
Proof.
  induction n as [|n IH]; intros P H Hi; [lia|]. rewrite sum_S in H. assert (A : 0 <= sum n f) by (apply sum_nonneg; intros; apply P; lia). assert (B := P n ltac:(lia)).
  destruct (Nat.eq_dec i n) as [->|]; [lra|]. apply IH; try lia; [|lra]. intros; apply P; lia.
Qed.
Lemma norm_zero_inv d v i : norm d v = 0 -> (i < d)%nat -> v i = 0.
Proof.
  intros H Hi. assert (E : dot d v v = 0) by (rewrite <- norm_sqr, H; ring). pose proof (sum_sq_zero d (fun i => v i * v i) i (fun i _ => Rle_0_sqr (v i)) E Hi) as K.
  cbv beta in K. nra.
Qed.

(** ** Coulomb's law: at most one solution *)
Section Coulomb.
Variables (d : nat) (k st : R) (tau0 : nat -> R).
Hypothesis (K : 0 < k).

(** the solution: the welded traction if it does not exceed the strength, else it is scaled to the strength *)
Lemma coulomb_char tau slip : 0 <= st -> (forall i, (i < d)%nat -> slip i = k * (tau i - tau0 i)) -> coulomb d st tau slip ->
  (norm d tau0 <= st -> forall i, (i < d)%nat -> tau i = tau0 i) /\ (st < norm d tau0 -> forall i, (i < d)%nat -> tau i = st / norm d tau0 * tau0 i).
Proof.
  intros S H (C1 & C2 & C3).
  assert (N : norm d slip = k * norm d (fun i => tau i - tau0 i)). { rewrite (norm_ext d slip (fun i => k * (tau i - tau0 i))) by assumption. rewrite norm_scal. rewrite Rabs_right by lra. reflexivity. }
  set (e := norm d (fun i => tau i - tau0 i)) in *. assert (E0 := norm_pos d (fun i => tau i - tau0 i) : 0 <= e).
  (* norm tau * (tau - tau0) = - e tau *)
  assert (C4 : forall i, (i < d)%nat -> norm d tau * tau0 i = (norm d tau + e) * tau i).
  { intros i Hi. specialize (C3 i Hi). rewrite H, N in C3 by assumption. apply (Rmult_eq_reg_l k); [|lra]. nra. }
  assert (C5 : norm d tau * norm d tau0 = (norm d tau + e) * norm d tau).
  { assert (X := norm_scal d (norm d tau) tau0). assert (Y := norm_scal d (norm d tau + e) tau). rewrite (norm_ext d (fun i => norm d tau * tau0 i) (fun i => (norm d tau + e) * tau i)) in X by assumption.
    rewrite Rabs_right in X by (apply Rle_ge, norm_pos). rewrite Rabs_right in Y by (pose proof (norm_pos d tau); lra). lra. }
  assert (M := norm_pos d tau).
  destruct (Req_dec e 0) as [Z|Z].
  - assert (EQ : forall i, (i < d)%nat -> tau i = tau0 i). { intros i Hi. pose proof (norm_zero_inv d _ i Z Hi) as X. cbv beta in X. lra. }
    split; [auto|]. intros L. rewrite (norm_ext d tau tau0) in C1 by assumption. lra.
  - assert (SL : norm d tau = st).
    { apply C2. destruct (Req_dec (norm d slip) 0) as [X|X].
      - rewrite N in X. apply Rmult_integral in X. lra.
      - assert (Q : ~ forall i, (i < d)%nat -> slip i = 0) by (intros Q; apply X, norm_zero; assumption). clear -Q. revert Q. induction d as [|n IH]; intros Q; [exfalso; apply Q; intros; lia|].
        destruct (Req_dec (slip n) 0) as [Y|Y]; [|exists n; split; [lia|assumption]]. destruct IH as (i & Hi & A); [|exists i; split; [lia|assumption]].
        intros B. apply Q. intros i Hi. destruct (Nat.eq_dec i n) as [->|]; [assumption|]. apply B. lia. }
    destruct (Req_dec st 0) as [S0|S0].
    + assert (T0 : forall i, (i < d)%nat -> tau i = 0) by (intros; apply (norm_zero_inv d); [lra|assumption]). split.
      * intros L i Hi. rewrite T0 by assumption. symmetry. apply (norm_zero_inv d); [|assumption]. pose proof (norm_pos d tau0). lra.
      * intros L i Hi. rewrite T0, S0 by assumption. unfold Rdiv. ring.
    + assert (Q : norm d tau0 = st + e). { rewrite SL in C5. apply (Rmult_eq_reg_l st); lra. }
      split; [lra|]. intros L i Hi. specialize (C4 i Hi). rewrite SL in C4. rewrite Q. apply (Rmult_eq_reg_l (st + e)); [|lra]. rewrite <- C4. field. lra.
Qed.

Lemma coulomb_solves : 0 <= st -> let c := if Rlt_dec st (norm d tau0) then st / norm d tau0 else 1 in
  coulomb d st (fun i => c * tau0 i) (fun i => k * (c * tau0 i - tau0 i)).
Proof.
  intros S. cbv zeta. destruct (Rlt_dec st (norm d tau0)) as [L|L].
  - set (c := st / norm d tau0). assert (C : 0 <= c < 1).
    { unfold c. split; [apply Rmult_le_pos; [lra|]; left; apply Rinv_0_lt_compat; lra|]. apply (Rmult_lt_reg_r (norm d tau0)); [lra|]. unfold Rdiv. rewrite Rmult_assoc, Rinv_l by lra. lra. }
    assert (N : norm d (fun i => c * tau0 i) = st). { rewrite norm_scal, Rabs_right by lra. unfold c. field. lra. }
    split; [lra|]. split; [intros; assumption|]. intros i Hi. rewrite N.
    rewrite (norm_ext d (fun i => k * (c * tau0 i - tau0 i)) (fun i => (k * (c - 1)) * tau0 i)) by (intros; ring). rewrite norm_scal, Rabs_left1 by nra.
    unfold c. field. lra.
  - assert (N : norm d (fun i => 1 * tau0 i) = norm d tau0) by (apply norm_ext; intros; ring). split; [lra|]. split.
    + intros (i & Hi & Q). exfalso. apply Q. ring.
    + intros i Hi. rewrite (norm_zero d (fun i => k * (1 * tau0 i - tau0 i))) by (intros; ring). ring.
Qed.
End Coulomb.

(** ** States *)
Lemma flux_vadd d m n q q' : dim d -> length q = nQt d -> length q' = nQt d -> flux d m n (vadd q q') = vadd (flux d m n q) (flux d m n q').
Proof.
  intros D L L'. assert (LF : forall q, length (flux d m n q) = nQt d) by (intros; now apply mk_length).
  apply (state_ext d); auto using len_vadd.
  - intros i j Hi Hj. rewrite sig_vadd, !sig_flux by (auto; rewrite !LF; auto). unfold strain. rewrite !vel_vadd by congruence.
    rewrite (dot_ext d (vel d (vadd q q')) n (fun i => 1 * vel d q i + 1 * vel d q' i) n) by (intros; rewrite ?vel_vadd by congruence; ring). rewrite dot_lin. field.
  - intros i Hi. rewrite vel_vadd, !vel_flux, traction_vadd by (auto; try congruence; rewrite !LF; auto). unfold Rdiv. ring.
Qed.
Lemma vscale_vadd c a b : vscale c (vadd a b) = vadd (vscale c a) (vscale c b).
Proof. unfold vscale, vadd. revert b. induction a as [|x a IH]; intros [|y b]; cbn [combine map fst snd]; try reflexivity. rewrite IH. f_equal. ring. Qed.
Lemma vadd_swap a b c e n : length a = n -> length b = n -> length c = n -> length e = n -> vadd (vadd a b) (vadd c e) = vadd (vadd a c) (vadd b e).
Proof.
  intros A B C E. apply nth_ext with 0 0; [rewrite !(len_vadd _ _ n); auto using len_vadd|]. intros i Hi.
  assert (L1 := len_vadd a b n A B). assert (L2 := len_vadd c e n C E). assert (L3 := len_vadd a c n A C). assert (L4 := len_vadd b e n B E).
  rewrite !nth_vadd by congruence. ring.
Qed.
Lemma entering_add d m n a b : dim d -> entering d m n a -> entering d m n b -> entering d m n (vadd a b).
Proof.
  intros D (p & s & A1 & A2 & A3 & A4 & A5) (p' & s' & B1 & B2 & B3 & B4 & B5). exists (vadd p p'), (vadd s s'). split; [auto using len_vadd|]. split; [auto using len_vadd|].
  split; [rewrite A3, B3; apply (vadd_swap _ _ _ _ (nQt d)); assumption|]. rewrite !flux_vadd, A4, A5, B4, B5, !vscale_vadd by assumption. auto.
Qed.
Lemma wave_entering d m n w : dim d -> dot d n n = 1 -> solid m -> entering d m n (wave d m n w).
Proof. intros D U S. apply entering_wave; auto using wave_length. apply wave_ext; auto. intros. symmetry. now apply wave_vel. Qed.
Lemma vsub_vadd_l d a b q : length a = nQt d -> length b = nQt d -> length q = nQt d -> vsub (vadd a b) q = vadd (vsub a q) b.
Proof.
  intros A B Q. assert (L1 := len_vadd a b _ A B). assert (L2 := len_vsub a q _ A Q). apply nth_ext with 0 0; [rewrite (len_vsub _ _ (nQt d)), (len_vadd _ _ (nQt d)); auto|].
  intros i Hi. rewrite nth_vsub, !nth_vadd, nth_vsub by congruence. ring.
Qed.

Section States.
Variables (d : nat) (p m : material) (n bg : nat -> R) (st : R -> R) (qP qM : list R).
Hypotheses (D : dim d) (U : dot d n n = 1) (SP : solid p) (SM : solid m) (LP : length qP = nQt d) (LM : length qM = nQt d).
Hypothesis (BG : dot d bg n = 0).

(** shear traction of the welded interface, with background stress *)
Definition weldShear (i : nat) : R := tangential d n (starT d p m n qP qM) i + bg i.
Definition kk : R := 1 / zs p + 1 / zs m.
Lemma kk_pos : 0 < kk.
Proof. unfold kk. pose proof (zs_pos p SP). pose proof (zs_pos m SM). apply Rplus_lt_0_compat; apply Rdiv_lt_0_compat; lra. Qed.

(** states from the welded interface and a change of the shear traction *)
Lemma states_delta delta : dot d delta n = 0 -> exists sP sM, length sP = nQt d /\ length sM = nQt d /\
  entering d p n (vsub sP qP) /\ entering d m (neg n) (vsub sM qM) /\
  (forall i, (i < d)%nat -> traction d sP n i = starT d p m n qP qM i + delta i) /\ (forall i, (i < d)%nat -> traction d sM n i = starT d p m n qP qM i + delta i) /\
  (forall i, (i < d)%nat -> vel d sP i = starV d p m n qP qM i + delta i / zs p) /\ (forall i, (i < d)%nat -> vel d sM i = starV d p m n qP qM i - delta i / zs m).
Proof.
  intros DN. destruct (riemann_exists d p m n qP qM D U SP SM LP LM) as (s0 & s1 & R). pose proof (riemann_star d p m n qP qM s0 s1 D U SP SM LP LM R) as ST.
  destruct R as (L0 & L1 & E0 & E1 & TR & VE). assert (ZP := zs_pos p SP). assert (ZM := zs_pos m SM). assert (U' : dot d (neg n) (neg n) = 1) by (rewrite dot_neg2; assumption).
  set (w := fun i => delta i / zs p). set (w' := fun i => - (delta i / zs m)).
  exists (vadd s0 (wave d p n w)), (vadd s1 (wave d m (neg n) w')).
  assert (W := wave_length d p n w D). assert (W' := wave_length d m (neg n) w' D).
  assert (DW : dot d w n = 0). { rewrite (dot_ext d w n (fun i => / zs p * delta i + 0 * delta i) n) by (auto; intros; unfold w, Rdiv; ring). rewrite dot_lin, DN. ring. }
  assert (DW' : dot d w' (neg n) = 0). { rewrite dot_neg. rewrite (dot_ext d w' n (fun i => - / zs m * delta i + 0 * delta i) n) by (auto; intros; unfold w', Rdiv; ring). rewrite dot_lin, DN. ring. }
  split; [auto using len_vadd|]. split; [auto using len_vadd|].
  split. { rewrite (vsub_vadd_l d) by assumption. apply entering_add; auto using wave_entering. }
  split. { rewrite (vsub_vadd_l d) by assumption. apply entering_add; auto using wave_entering. }
  split. { intros i Hi. rewrite traction_vadd, wave_traction by (auto; congruence). rewrite (proj2 (ST i Hi)). unfold par, perp. rewrite DW. unfold w. field. lra. }
  split. { intros i Hi. rewrite traction_vadd by congruence. rewrite <- TR, (proj2 (ST i Hi)) by assumption. f_equal. rewrite <- (neg_neg d (wave d m (neg n) w') n i), traction_neg, wave_traction by auto.
           unfold par, perp. rewrite DW'. unfold w'. field. lra. }
  split.
  - intros i Hi. rewrite vel_vadd, wave_vel by (auto; congruence). rewrite (proj1 (ST i Hi)). reflexivity.
  - intros i Hi. rewrite vel_vadd, wave_vel by (auto; congruence). rewrite <- VE, (proj1 (ST i Hi)) by assumption. unfold w'. ring.
Qed.

(** any states that satisfy the linear conditions differ from the welded states by a change of the shear traction *)
Lemma states_char sP sM : length sP = nQt d -> length sM = nQt d -> entering d p n (vsub sP qP) -> entering d m (neg n) (vsub sM qM) ->
  (forall i, (i < d)%nat -> traction d sP n i = traction d sM n i) -> dot d (vel d sP) n = dot d (vel d sM) n ->
  exists delta, dot d delta n = 0 /\ forall i, (i < d)%nat -> traction d sP n i = starT d p m n qP qM i + delta i /\
    vel d sP i = starV d p m n qP qM i + delta i / zs p /\ vel d sM i = starV d p m n qP qM i - delta i / zs m.
Proof.
  intros L0 L1 E0 E1 TR VE. destruct (riemann_exists d p m n qP qM D U SP SM LP LM) as (s0 & s1 & R). pose proof (riemann_star d p m n qP qM s0 s1 D U SP SM LP LM R) as ST.
  destruct R as (L0' & L1' & E0' & E1' & TR' & VE'). assert (ZP := zs_pos p SP). assert (ZM := zs_pos m SM). assert (YP := zp_pos p SP). assert (YM := zp_pos m SM).
  assert (U' : dot d (neg n) (neg n) = 1) by (rewrite dot_neg2; assumption).
  set (e := fun i => vel d sP i - vel d s0 i). set (f := fun i => vel d sM i - vel d s1 i). set (de := fun i => traction d sP n i - traction d s0 n i).
  assert (A : forall i, (i < d)%nat -> de i = zp p * par d n e i + zs p * perp d n e i).
  { intros i Hi. pose proof (entering_traction d p n sP qP i D U SP L0 LP E0 Hi) as X. pose proof (entering_traction d p n s0 qP i D U SP L0' LP E0' Hi) as Y. cbv zeta in X, Y.
    rewrite !par_sub, !perp_sub in X, Y. unfold de, e. rewrite par_sub, perp_sub. lra. }
  assert (B : forall i, (i < d)%nat -> de i = - (zp m * par d n f i + zs m * perp d n f i)).
  { intros i Hi. pose proof (entering_traction d m (neg n) sM qM i D U' SM L1 LM E1 Hi) as X. pose proof (entering_traction d m (neg n) s1 qM i D U' SM L1' LM E1' Hi) as Y. cbv zeta in X, Y.
    rewrite !traction_neg, !par_neg, !perp_neg, !par_sub, !perp_sub in X, Y. unfold de, f. rewrite par_sub, perp_sub, TR, TR' by assumption. lra. }
  assert (EF : dot d e n = dot d f n). { unfold e, f. rewrite !dot_sub, VE. f_equal. apply dot_ext; auto. }
  assert (NN : forall v a b, dot d (fun i => a * par d n v i + b * perp d n v i) n = a * dot d v n) by (intros; rewrite dot_lin, dot_par, dot_perp by assumption; ring).
  assert (A' : dot d de n = zp p * dot d e n) by (rewrite <- (NN e _ (zs p)); apply dot_ext; auto).
  assert (B' : dot d de n = - zp m * dot d f n) by (rewrite <- (NN f _ (- zs m)); apply dot_ext; auto; intros i Hi; rewrite B by assumption; ring).
  assert (Z : dot d e n = 0). { rewrite B', <- EF in A'. assert (X : (zp p + zp m) * dot d e n = 0) by lra. apply Rmult_integral in X. lra. }
  exists de. split; [rewrite A', Z; ring|]. intros i Hi. destruct (ST i Hi) as (S1 & S2).
  assert (A2 := A i Hi). assert (B2 := B i Hi). unfold par, perp in A2, B2. rewrite <- EF in B2. rewrite Z in A2, B2.
  split; [unfold de; lra|]. rewrite <- S1. split.
  - assert (X : e i = de i / zs p) by (rewrite A2; field; lra). unfold e in X. lra.
  - assert (X : f i = - (de i / zs m)) by (rewrite B2; field; lra). unfold f in X. rewrite VE' by assumption. lra.
Qed.

Definition tn0 : R := dot d (starT d p m n qP qM) n.
Definition factor : R := if Rlt_dec (st tn0) (norm d weldShear) then st tn0 / norm d weldShear else 1.

Lemma weld_dot : dot d weldShear n = 0.
Proof.
  unfold weldShear. rewrite (dot_ext d _ n (fun i => 1 * perp d n (starT d p m n qP qM) i + 1 * bg i) n) by (auto; intros; unfold tangential, perp; ring).
  rewrite dot_lin, dot_perp, BG by assumption. ring.
Qed.

Lemma fault_tau sP delta i : dot d delta n = 0 -> (i < d)%nat -> (forall i, (i < d)%nat -> traction d sP n i = starT d p m n qP qM i + delta i) ->
  tangential d n (traction d sP n) i + bg i = weldShear i + delta i /\ dot d (traction d sP n) n = tn0.
Proof.
  intros DN Hi T. assert (E : dot d (traction d sP n) n = tn0).
  { rewrite (dot_ext d _ n (fun i => 1 * starT d p m n qP qM i + 1 * delta i) n) by (auto; intros; rewrite T by assumption; ring). rewrite dot_lin, DN. unfold tn0. ring. }
  split; [|assumption]. unfold weldShear, tangential. rewrite E, T by assumption. unfold tn0. ring.
Qed.

Hypothesis (STP : 0 <= st tn0).

Lemma fault_exists : exists sP sM, faultStates d p m n bg st qP qM sP sM.
Proof.
  assert (DN : dot d (fun i => (factor - 1) * weldShear i + 0 * weldShear i) n = 0) by (rewrite dot_lin, weld_dot; ring).
  destruct (states_delta _ DN) as (sP & sM & L0 & L1 & E0 & E1 & T0 & T1 & V0 & V1). exists sP, sM.
  split; [assumption|]. split; [assumption|]. split; [assumption|]. split; [assumption|]. split; [intros i Hi; rewrite T0, T1; auto|].
  assert (DV : forall z c, dot d (fun i => starV d p m n qP qM i + c * (((factor - 1) * weldShear i + 0 * weldShear i) / z)) n = dot d (starV d p m n qP qM) n).
  { intros z c. rewrite (dot_ext d _ n (fun i => 1 * starV d p m n qP qM i + (c / z) * ((factor - 1) * weldShear i + 0 * weldShear i)) n) by (auto; intros; unfold Rdiv; ring). rewrite dot_lin, DN. ring. }
  split. { rewrite (dot_ext d (vel d sP) n _ n V0) by auto. rewrite (dot_ext d (vel d sM) n _ n V1) by auto. rewrite (dot_ext d _ n (fun i => starV d p m n qP qM i + 1 * (((factor - 1) * weldShear i + 0 * weldShear i) / zs p)) n) by (auto; intros; ring).
           rewrite (dot_ext d (fun i => _ - _) n (fun i => starV d p m n qP qM i + -1 * (((factor - 1) * weldShear i + 0 * weldShear i) / zs m)) n) by (auto; intros; ring). rewrite !DV. reflexivity. }
  pose proof (coulomb_solves d kk (st tn0) weldShear kk_pos STP) as C. cbv zeta in C. fold factor in C.
  assert (P0 : (0 < d)%nat) by (destruct D; lia). rewrite (proj2 (fault_tau sP _ 0 DN P0 T0)). destruct C as (C1 & C2 & C3).
  assert (X : forall i, (i < d)%nat -> tangential d n (traction d sP n) i + bg i = factor * weldShear i) by (intros i Hi; rewrite (proj1 (fault_tau sP _ i DN Hi T0)); ring).
  assert (Y : forall i, (i < d)%nat -> vel d sP i - vel d sM i = kk * (factor * weldShear i - weldShear i)) by (intros i Hi; rewrite V0, V1 by assumption; unfold kk, Rdiv; ring).
  split; [rewrite (norm_ext d _ _ X); assumption|]. split; [intros (i & Hi & Q); rewrite (norm_ext d _ _ X); apply C2; exists i; split; [assumption|]; rewrite <- Y by assumption; assumption|].
  intros i Hi. rewrite (norm_ext d _ _ X), (norm_ext d _ _ Y), X, Y by assumption. apply C3; assumption.
Qed.

Lemma fault_char sP sM : faultStates d p m n bg st qP qM sP sM -> forall i, (i < d)%nat ->
  let delta i := (factor - 1) * weldShear i in
  traction d sP n i = starT d p m n qP qM i + delta i /\ traction d sM n i = starT d p m n qP qM i + delta i /\
  vel d sP i = starV d p m n qP qM i + delta i / zs p /\ vel d sM i = starV d p m n qP qM i - delta i / zs m.
Proof.
  intros (L0 & L1 & E0 & E1 & TR & VE & C). destruct (states_char sP sM L0 L1 E0 E1 TR VE) as (de & DN & H).
  assert (T0 : forall i, (i < d)%nat -> traction d sP n i = starT d p m n qP qM i + de i) by (intros; apply H; assumption).
  assert (ED : forall i, (i < d)%nat -> de i = (factor - 1) * weldShear i).
  { assert (P0 : (0 < d)%nat) by (destruct D; lia). rewrite (proj2 (fault_tau sP de 0 DN P0 T0)) in C.
    assert (SL : forall i, (i < d)%nat -> vel d sP i - vel d sM i = kk * ((tangential d n (traction d sP n) i + bg i) - weldShear i)).
    { intros i Hi. rewrite (proj1 (fault_tau sP de i DN Hi T0)). destruct (H i Hi) as (_ & -> & ->). unfold kk, Rdiv. ring. }
    destruct (coulomb_char d kk (st tn0) weldShear kk_pos (fun i => tangential d n (traction d sP n) i + bg i) (fun i => vel d sP i - vel d sM i) STP SL C) as (C1 & C2).
    intros i Hi. unfold factor. destruct (Rlt_dec (st tn0) (norm d weldShear)) as [L|L].
    - specialize (C2 L i Hi). cbv beta in C2. rewrite (proj1 (fault_tau sP de i DN Hi T0)) in C2. lra.
    - specialize (C1 ltac:(lra) i Hi). cbv beta in C1. rewrite (proj1 (fault_tau sP de i DN Hi T0)) in C1. lra. }
  intros i Hi. cbv zeta. destruct (H i Hi) as (A & B & C'). rewrite <- ED by assumption. rewrite <- TR by assumption. auto.
Qed.

Lemma fault_unique sP sM sP' sM' : faultStates d p m n bg st qP qM sP sM -> faultStates d p m n bg st qP qM sP' sM' -> sP = sP' /\ sM = sM'.
Proof.
  intros H H'. pose proof (fault_char sP sM H) as C. pose proof (fault_char sP' sM' H') as C'. destruct H as (L0 & L1 & E0 & E1 & _). destruct H' as (L0' & L1' & E0' & E1' & _).
  assert (U' : dot d (neg n) (neg n) = 1) by (rewrite dot_neg2; assumption). split.
  - apply (entering_unique d p n qP); auto. intros i Hi. destruct (C i Hi) as (_ & _ & -> & _), (C' i Hi) as (_ & _ & -> & _). reflexivity.
  - apply (entering_unique d m (neg n) qM); auto. intros i Hi. destruct (C i Hi) as (_ & _ & _ & ->), (C' i Hi) as (_ & _ & _ & ->). reflexivity.
Qed.
End States.
