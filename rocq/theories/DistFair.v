(** Termination of the multi-rank model under fair scheduling. *)
From Verif Require Import Util SchedModel SchedProofs SchedInv SchedReach DistModel DistProofs DistLive.

(* ------------------------------------------------------------------ *)
(** * Sums *)
Definition sum (n : nat) (f : nat -> nat) : nat := list_sum (map f (seq 0 n)).

Lemma sum_S n f : sum (S n) f = sum n f + f n.
Proof. unfold sum. rewrite seq_snoc, map_app, list_sum_app. cbn. lia. Qed.

Lemma sum_le n f g : (forall x, x < n -> f x <= g x) -> sum n f <= sum n g.
Proof.
  induction n as [|n IH]; intros H; [reflexivity|]. rewrite !sum_S.
  pose proof (H n ltac:(lia)). assert (sum n f <= sum n g) by (apply IH; intros; apply H; lia). lia.
Qed.

Lemma sum_lt n f g : (forall x, x < n -> f x <= g x) -> (exists x, x < n /\ f x < g x) -> sum n f < sum n g.
Proof.
  induction n as [|n IH]; intros H (x & Hx & L); [lia|]. rewrite !sum_S.
  destruct (Nat.eq_dec x n) as [->|Ne].
  - assert (sum n f <= sum n g) by (apply sum_le; intros; apply H; lia). lia.
  - pose proof (H n ltac:(lia)).
    assert (sum n f < sum n g) by (apply IH; [intros; apply H; lia|exists x; split; [lia|auto]]). lia.
Qed.

Lemma sum_eq n f g : (forall x, x < n -> f x = g x) -> sum n f = sum n g.
Proof. intros H. apply Nat.le_antisymm; apply sum_le; intros x Hx; rewrite (H x Hx); auto. Qed.

Lemma sum_bound n f B : (forall x, x < n -> f x <= B) -> sum n f <= n * B.
Proof.
  induction n as [|n IH]; intros H; [reflexivity|]. rewrite sum_S. pose proof (H n ltac:(lia)).
  assert (sum n f <= n * B) by (apply IH; intros; apply H; lia). lia.
Qed.

(* ------------------------------------------------------------------ *)
(** * Measure: how far the run has got *)

Definition Wt (t : tgs) : nat :=
  (if cf t 0 =? 9 then 0 else 1 + cf t 0 + cf t 1 + cf t 2 + cf t 3 + cf t 4 + cf t 5) +
  32 * nTs t + 2 * nSe t + is1 (cf t 6) + 2 * nRe t + is1 (cf t 7).

Definition wv (x : wst) : nat := match x with Idle => 0 | Got _ _ => 1 | Busy _ _ => 2 end.

Definition RM (c : cfg) (s : rst) : nat :=
  sum (nT c) (fun g => Wt (tg s g)) +
  sum (nT c) (fun g => sum 6 (fun e => sum (nW c) (fun w => 3 * exe s g e w))) +
  sum (nW c) (fun w => wv (cur s w)).

Definition b2n (b : bool) : nat := if b then 1 else 0.

Definition CM (n : chst) : nat :=
  4 * sN n + 2 * b2n (negb (sAct n)) + b2n (sTst n) + 4 * rN n + 2 * b2n (negb (rAct n)) + b2n (rTst n).

Definition M (G : gcfg) (s : gst) : nat :=
  sum (gR G) (fun r => RM (rcfg G r) (rk s r)) + sum (length (gC G)) (fun i => CM (net s i)).

(** nothing but the positions of the schedulers differs *)
Definition same (s s' : gst) : Prop :=
  (forall r g, tg (rk s' r) g = tg (rk s r) g) /\
  (forall r g e w, stat (rk s' r) g e w = stat (rk s r) g e w) /\
  (forall r w, cur (rk s' r) w = cur (rk s r) w) /\
  (forall i, net s' i = net s i).

Lemma same_refl s : same s s.
Proof. repeat apply conj; auto. Qed.
Lemma same_trans s s' s'' : same s s' -> same s' s'' -> same s s''.
Proof.
  intros (A1 & A2 & A3 & A4) (B1 & B2 & B3 & B4). repeat apply conj; intros; [rewrite B1|rewrite B2|rewrite B3|rewrite B4]; auto.
Qed.

Lemma blk_skip c mpi s g b s' ev : guard_ c mpi s g b = false -> run_blk c mpi s g b = Next s' ev ->
  ev = None /\ tg s' = tg s /\ stat s' = stat s /\ cur s' = cur s /\ exe s' = exe s.
Proof.
  intros H E. destruct b; cbn [guard_] in H; unfold run_blk in E; try (rewrite H in E; now injection E as <- <-).
  destruct (_ && _) in E; now injection E as <- <-.
Qed.

Lemma Loc_num N t : Loc N t ->
  (cf t 0 = 9 /\ cf t 1 = 9 /\ cf t 2 = 9 /\ cf t 3 = 9 /\ cf t 4 = 9 /\ cf t 5 = 9 /\ cf t 6 = 9 /\ cf t 7 = 9) \/
  (cf t 0 <= 5 /\ cf t 1 <= 5 /\ cf t 2 <= 5 /\ cf t 3 <= 5 /\ cf t 4 <= 5 /\ cf t 5 <= 5 /\ cf t 6 <= 5 /\ cf t 7 <= 5).
Proof.
  intros (p & q & (A1 & A2 & A3 & _) & (B1 & B2 & B3 & _ & _ & _ & B7 & B8) & C1 & _).
  rewrite A1, A2, A3, B1, B2, B3. clear A1 A2 A3 B1 B2 B3.
  destruct (Nat.eq_dec (ic0 p) 9) as [E|E].
  - left. destruct p; try discriminate. destruct q; cbn in *; try contradiction. lia.
  - right. assert (q <> SU). { intros ->. destruct p; cbn in *; tauto. }
    assert (p <> IU) by (intros ->; auto).
    repeat apply conj; try (destruct p; cbn; lia || congruence); try (destruct q; cbn; lia || congruence);
      destruct q; cbn in B7, B8; try congruence; lia.
Qed.

Lemma is1_le x : is1 x <= 1.
Proof. unfold is1. destruct (x =? 1); lia. Qed.

Lemma blk_gain c mpi s g b s' ev : Inv c s -> g < nT c -> guard_ c mpi s g b = true -> run_blk c mpi s g b = Next s' ev ->
  Wt (tg s g) < Wt (tg s' g).
Proof.
  intros HI Hg H E. pose proof (Loc_num _ _ (proj1 HI g Hg)) as L. set (t := tg s g) in *. clear HI.
  assert (K : exists t', tg s' g = t' /\ Wt t < Wt t'); [|destruct K as (t' & -> & K); exact K].
  pose proof (is1_le (cf t 6)) as I6. pose proof (is1_le (cf t 7)) as I7.
  destruct b; cbn [guard_] in H; unfold run_blk, set_rdy in E; fold t in E, H; try rewrite H in E;
    repeat match type of E with (if ?x then _ else _) = _ => let G := fresh "G" in destruct x eqn:G end;
    try discriminate; injection E as <- <-; cbn [tg with_tg]; rewrite ?fset_eq; eexists; (split; [reflexivity|]);
    unfold cfMax in *; gsplit; clearbody t; unfold Wt;
    cbn [cf nTs nSe nRe set_cf inc_tpI inc_tpS inc_srI inc_srS inc_duI inc_duS inc_nSe inc_nRe inc_nTs];
    unfold fset; cbn [Nat.eqb];
    (destruct L as [L|L]; [try lia; destruct L as (_ & _ & _ & _ & _ & _ & L6 & L7); rewrite ?L6, ?L7 in *; try lia|try (exfalso; lia); assert (N0 : (cf t 0 =? 9) = false) by (apply Nat.eqb_neq; lia); rewrite ?N0];
     repeat match goal with [ X : cf t ?i = ?v |- _ ] => rewrite X; clear X end; cbn [is1 Nat.eqb] in *; try lia).
Qed.

Lemma RM_tg c s s' : (forall g, tg s' g = tg s g) -> exe s' = exe s -> cur s' = cur s -> RM c s' = RM c s.
Proof.
  intros T E1 E2. unfold RM. rewrite E1, E2. f_equal. f_equal. apply sum_eq. intros g _. now rewrite T.
Qed.

Lemma CM_ev G r s ev nt i : CM (nt i) <= CM (apply_ev G r s ev nt i).
Proof.
  unfold apply_ev. destruct ev as [[lt g|lt g]|]; auto.
  - destruct (matchS _ _ _ _); auto. unfold CM, beginSend. cbn [sN sAct sTst rN rAct rTst negb].
    destruct (sAct (nt i)), (sTst (nt i)); cbn; lia.
  - destruct (matchR _ _ _ _); auto. unfold CM, beginRecv. cbn [sN sAct sTst rN rAct rTst negb].
    destruct (rAct (nt i)), (rTst (nt i)); cbn; lia.
Qed.

(** work of a worker increases the measure of the rank *)
Lemma work_gain c s l s' ev : Inv c s -> rstep c s l = Next s' ev -> (forall mpi, l <> LSched mpi) -> RM c s < RM c s'.
Proof.
  intros HI E NL. destruct HI as (_ & _ & _ & (J1 & J2 & _) & _).
  destruct l as [mpi|w g e|w|w]; cbn [rstep] in E.
  - now destruct (NL mpi).
  - unfold get_step in E. destruct ((w <? nW c) && (g <? nT c) && (e <? 6)) eqn:B; [|discriminate].
    cbn [negb] in E. apply andb_prop in B as [B _]. apply andb_prop in B as [B _]. apply Nat.ltb_lt in B.
    destruct (cur s w) eqn:C; try discriminate. destruct (status_eqb _ _); [|discriminate]. injection E as <- <-.
    unfold RM. cbn [tg exe cur]. apply Nat.add_lt_mono_l. apply sum_lt.
    + intros x _. destruct (Nat.eq_dec x w) as [->|]; [rewrite fset_eq, C|rewrite fset_ne by auto]; cbn; lia.
    + exists w. split; [auto|]. rewrite fset_eq, C. cbn. lia.
  - unfold start_step in E. destruct (cur s w) as [|g e|g e] eqn:C; try discriminate. destruct (negb _); [discriminate|]. injection E as <- <-.
    destruct (J1 _ _ _ C) as (_ & B & _).
    unfold RM. cbn [tg exe cur]. apply Nat.add_lt_mono_l. apply sum_lt.
    + intros x _. destruct (Nat.eq_dec x w) as [->|]; [rewrite fset_eq, C|rewrite fset_ne by auto]; cbn; lia.
    + exists w. split; [auto|]. rewrite fset_eq, C. cbn. lia.
  - unfold done_step in E. destruct (cur s w) as [|g e|g e] eqn:C; try discriminate. destruct (negb _); [discriminate|]. injection E as <- <-.
    destruct (J2 _ _ _ C) as (_ & B & Bg & Be).
    unfold RM. cbn [tg exe cur].
    set (ex' := fun g' e' w' => if (g' =? g) && (e' =? e) && (w' =? w) then S (exe s g e w) else exe s g' e' w').
    assert (X : sum (nW c) (fun w0 => wv (cur s w0)) = sum (nW c) (fun w0 => wv (fset (cur s) w Idle w0)) + 2).
    { clear - C B. revert B. generalize (nW c). induction n as [|n IH]; intros B; [lia|]. rewrite !sum_S.
      destruct (Nat.eq_dec n w) as [->|Ne].
      - rewrite fset_eq, C. cbn [wv].
        rewrite (sum_eq w (fun w0 => wv (cur s w0)) (fun w0 => wv (fset (cur s) w Idle w0))); [lia|].
        intros x Hx. rewrite fset_ne by lia. reflexivity.
      - rewrite fset_ne by auto. rewrite IH by lia. lia. }
    rewrite X.
    assert (Y : sum (nT c) (fun g0 => sum 6 (fun e0 => sum (nW c) (fun w0 => 3 * exe s g0 e0 w0))) + 3 <=
                sum (nT c) (fun g0 => sum 6 (fun e0 => sum (nW c) (fun w0 => 3 * ex' g0 e0 w0)))).
    2: { unfold ex' in Y. cbv beta in Y |- *. revert Y. generalize (sum (nW c) (fun w0 => wv (fset (cur s) w Idle w0))).
         intros z Y. eapply Nat.lt_le_trans; [|apply Nat.add_le_mono_r, Nat.add_le_mono_l; exact Y]. lia. }
    assert (LE : forall g0 e0 w0, exe s g0 e0 w0 <= ex' g0 e0 w0).
    { intros g0 e0 w0. unfold ex'. destruct (Nat.eqb_spec g0 g) as [->|]; auto. destruct (Nat.eqb_spec e0 e) as [->|]; auto.
      destruct (Nat.eqb_spec w0 w) as [->|]; cbn; auto. }
    assert (SP : forall n x f f', x < n -> (forall y, y < n -> f y <= f' y) -> f x + 3 <= f' x -> sum n f + 3 <= sum n f').
    { clear. induction n as [|n IH]; intros x f f' Hx H1 H2; [lia|]. rewrite !sum_S.
      destruct (Nat.eq_dec x n) as [->|Ne].
      - assert (sum n f <= sum n f') by (apply sum_le; intros; apply H1; lia). lia.
      - pose proof (H1 n ltac:(lia)). assert (sum n f + 3 <= sum n f') by (apply (IH x); auto; lia). lia. }
    apply (SP _ g); auto.
    { intros y _. apply sum_le. intros e0 _. apply sum_le. intros w0 _. specialize (LE y e0 w0). lia. }
    apply (SP _ e); auto.
    { intros y _. apply sum_le. intros w0 _. specialize (LE g y w0). lia. }
    apply (SP _ w); auto.
    { intros y _. specialize (LE g e y). lia. }
    unfold ex'. rewrite !Nat.eqb_refl. cbn [andb]. lia.
Qed.

(** every step either increases the measure or changes nothing but the position of a scheduler *)
Lemma step_gain G s l s' : greach G s -> gstep G s l = GNext s' ->
  (M G s < M G s') \/
  (M G s' = M G s /\ same s s' /\
   (forall r, l <> GSched r -> rk s' r = rk s r \/ rk s' = rk s)).
Proof.
  intros R E. pose proof (greach_inv G s R) as INV.
  assert (RG : forall r s1 nt, r < gR G -> RM (rcfg G r) (rk s r) < RM (rcfg G r) s1 -> (forall i, CM (net s i) <= CM (nt i)) ->
     M G s < M G (mkGst (fset (rk s) r s1) nt)).
  { intros r s1 nt Hr L1 L2. unfold M. cbn [rk net]. apply Nat.add_lt_le_mono.
    - apply sum_lt.
      + intros x _. destruct (Nat.eq_dec x r) as [->|]; [rewrite fset_eq|rewrite fset_ne by auto]; lia.
      + exists r. split; auto. now rewrite fset_eq.
    - apply sum_le. auto. }
  assert (RE : forall r s1 nt, tg s1 = tg (rk s r) -> stat s1 = stat (rk s r) -> exe s1 = exe (rk s r) -> cur s1 = cur (rk s r) ->
     (forall i, nt i = net s i) -> M G (mkGst (fset (rk s) r s1) nt) = M G s /\ same s (mkGst (fset (rk s) r s1) nt)).
  { intros r s1 nt T1 T2 T3 T4 T5. split.
    - unfold M. cbn [rk net]. f_equal; apply sum_eq; intros x _; [|now rewrite T5].
      destruct (Nat.eq_dec x r) as [->|]; [rewrite fset_eq|now rewrite fset_ne by auto].
      apply RM_tg; auto. intros g. now rewrite T1.
    - repeat apply conj; cbn [rk net]; auto; intros r0; intros;
        (destruct (Nat.eq_dec r0 r) as [->|]; [rewrite fset_eq|now rewrite fset_ne by auto]); congruence. }
  destruct l as [r|r l|i|i]; cbn [gstep] in E.
  - destruct (Nat.ltb_spec r (gR G)) as [Hr|]; [|discriminate]. unfold rank_step in E. cbn [rstep] in E.
    destruct (sched_step (rcfg G r) (mpi_answer G s r) (rk s r)) as [s1 ev| |] eqn:ES; try discriminate. injection E as <-.
    unfold sched_step in ES. destruct (fin (rk s r)); [discriminate|].
    destruct (nth_error (prog (rcfg G r)) (pc (rk s r))) as [[g b| |]|] eqn:Epc; try discriminate.
    + destruct (run_blk _ _ _ g b) as [s2 ev2| |] eqn:EB; try discriminate. injection ES as <- <-.
      destruct (guard_ (rcfg G r) (mpi_answer G s r) (rk s r) g b) eqn:GD.
      * left. apply RG; auto; [|intros; apply CM_ev].
        pose proof (nth_prog_group _ _ _ _ Epc) as Hg.
        pose proof (blk_gain _ _ _ _ _ _ _ (proj1 (INV r)) Hg GD EB) as BG.
        pose proof (blk_frame _ _ _ _ _ _ _ EB) as FR. destruct (blk_fin _ _ _ _ _ _ _ EB) as (_ & _ & F1 & F2 & _).
        unfold RM. cbn [tg exe cur set_pc]. rewrite F1, F2. apply Nat.add_lt_mono_r, Nat.add_lt_mono_r. apply sum_lt.
        -- intros x _. destruct (Nat.eq_dec x g) as [->|]; [lia|]. now rewrite FR.
        -- exists g. split; auto.
      * right. destruct (blk_skip _ _ _ _ _ _ _ GD EB) as (-> & T1 & T2 & T3 & T4).
        destruct (RE r (set_pc s2 (S (pc s2))) (net s)) as [H1 H2]; auto.
        split; [exact H1|]. split; [exact H2|]. intros r0 Ne. left. cbn [rk]. rewrite fset_ne by congruence. reflexivity.
    + injection ES as <- <-. right.
      match goal with |- M G (mkGst (fset (rk s) r ?s1) _) = _ /\ _ => destruct (RE r s1 (net s)) as [H1 H2] end; auto.
      split; [exact H1|]. split; [exact H2|]. intros r0 Ne. left. cbn [rk]. rewrite fset_ne by congruence. reflexivity.
    + injection ES as <- <-. right.
      match goal with |- M G (mkGst (fset (rk s) r ?s1) _) = _ /\ _ => destruct (RE r s1 (net s)) as [H1 H2] end; auto.
      split; [exact H1|]. split; [exact H2|]. intros r0 Ne. left. cbn [rk]. rewrite fset_ne by congruence. reflexivity.
  - left. assert (X : r < gR G /\ rank_step G s r l = GNext s' /\ forall mpi, l <> LSched mpi).
    { destruct l; try discriminate; (destruct (Nat.ltb_spec r (gR G)); [|discriminate]); repeat split; auto; discriminate. }
    clear E. destruct X as (Hr & E & NL). unfold rank_step in E.
    destruct (rstep (rcfg G r) (rk s r) l) as [s1 ev| |] eqn:E1; try discriminate. injection E as <-.
    apply RG; auto; [|intros; apply CM_ev]. eapply work_gain; eauto. apply INV.
  - destruct (Nat.ltb_spec i (length (gC G))) as [Hi|]; [|discriminate]. injection E as <-.
    assert (C : testSend (net s i) = net s i \/ CM (net s i) < CM (testSend (net s i))).
    { destruct (net s i) as [a b c d e f g h k]. unfold testSend, CM. cbn [sN sAct sTst rN rAct rTst rD msg rbf].
      destruct a, b; cbn; auto; right; lia. }
    destruct C as [C|C].
    + right. rewrite C.
      assert (FS : forall j, fset (net s) i (net s i) j = net s j).
      { intros j. destruct (Nat.eq_dec j i) as [->|]; [apply fset_eq|now apply fset_ne]. }
      split; [|split].
      * unfold M. cbn [rk net]. f_equal. apply sum_eq. intros x _. now rewrite FS.
      * repeat apply conj; auto.
      * intros. right. reflexivity.
    + left. unfold M. cbn [rk net]. apply Nat.add_lt_mono_l, sum_lt.
      * intros x _. destruct (Nat.eq_dec x i) as [->|]; [rewrite fset_eq; lia|now rewrite fset_ne].
      * exists i. split; auto. now rewrite fset_eq.
  - destruct (Nat.ltb_spec i (length (gC G))) as [Hi|]; [|discriminate].
    destruct (testRecv (net s i)) as [n|] eqn:T; [|discriminate]. injection E as <-.
    assert (C : n = net s i \/ CM (net s i) < CM n).
    { unfold testRecv in T. destruct (net s i) as [a b c d e f g h k]. unfold CM in *. cbn [sN sAct sTst rN rAct rTst rD msg rbf] in *.
      destruct d; [destruct (g <? c); [|discriminate]|]; injection T as <-; cbn [sN sAct sTst rN rAct rTst rD msg rbf];
      destruct e; cbn; auto; right; lia. }
    destruct C as [C|C].
    + right. rewrite C.
      assert (FS : forall j, fset (net s) i (net s i) j = net s j).
      { intros j. destruct (Nat.eq_dec j i) as [->|]; [apply fset_eq|now apply fset_ne]. }
      split; [|split].
      * unfold M. cbn [rk net]. f_equal. apply sum_eq. intros x _. now rewrite FS.
      * repeat apply conj; auto.
      * intros. right. reflexivity.
    + left. unfold M. cbn [rk net]. apply Nat.add_lt_mono_l, sum_lt.
      * intros x _. destruct (Nat.eq_dec x i) as [->|]; [rewrite fset_eq; lia|now rewrite fset_ne].
      * exists i. split; auto. now rewrite fset_eq.
Qed.

(* ------------------------------------------------------------------ *)
(** * The measure is bounded *)

Lemma sum_ge n f x : x < n -> f x <= sum n f.
Proof.
  induction n as [|n IH]; intros H; [lia|]. rewrite sum_S. destruct (Nat.eq_dec x n) as [->|]; [lia|].
  specialize (IH ltac:(lia)). lia.
Qed.

Definition NB (G : gcfg) : nat := sum (gT G) (fun g => nReq (rcfg G 0) g).

Definition bound (G : gcfg) : nat :=
  sum (gR G) (fun r => gT G * (36 * NB G + 40) + gT G * (6 * (gW G r * (3 * (NB G + 2)))) + gW G r * 2) +
  length (gC G) * (8 * NB G + 40).

Lemma Loc_bounds N t : Loc N t -> nSe t <= N + 1 /\ nRe t <= N + 2 /\ (forall e, cnt t e <= N + 1) /\ nTs t <= N.
Proof.
  intros L. pose proof (Loc_facts _ _ L) as (F0 & F1 & F2 & F3 & F4 & _).
  destruct L as (p & q & (A1 & A2 & A3 & A4 & A5 & A6) & (B1 & B2 & B3 & B4 & B5 & B6 & B7 & B8) & _).
  repeat apply conj; auto.
  - destruct q; cbn in B7; lia.
  - destruct q; cbn in B8; lia.
  - assert (isr p <= 1) by (destruct p; cbn; lia). assert (ssr q <= 1) by (destruct q; cbn; lia).
    intros e. destruct e as [|[|[|[|[|e]]]]]; cbn [cnt]; lia.
Qed.

Lemma M_bound G s : wf G -> greach G s -> M G s <= bound G.
Proof.
  intros WF R. unfold M, bound. apply Nat.add_le_mono.
  - apply sum_le. intros r Hr. destruct (greach_inv G s R r) as ((I1 & I2 & I3 & I4 & _) & _).
    assert (NBg : forall g, g < gT G -> nReq (rcfg G r) g <= NB G).
    { intros g Hg. apply (sum_ge (gT G) (fun g => nReq (rcfg G 0) g) g Hg). }
    unfold RM. change (nT (rcfg G r)) with (gT G) in *. change (nW (rcfg G r)) with (gW G r) in *.
    repeat apply Nat.add_le_mono.
    + apply sum_bound. intros g Hg. specialize (I1 g Hg). specialize (NBg g Hg).
      pose proof (Loc_bounds _ _ I1) as (B1 & B2 & _ & B3). pose proof (Loc_num _ _ I1) as LN.
      unfold Wt. pose proof (is1_le (cf (tg (rk s r) g) 6)). pose proof (is1_le (cf (tg (rk s r) g) 7)).
      destruct LN as [LN|LN].
      * replace (cf (tg (rk s r) g) 0 =? 9) with true by (symmetry; apply Nat.eqb_eq; tauto). lia.
      * destruct (cf (tg (rk s r) g) 0 =? 9); lia.
    + apply sum_bound. intros g Hg. apply sum_bound. intros e He. apply sum_bound. intros w Hw.
      specialize (I3 g e w Hg He Hw). specialize (I1 g Hg). specialize (NBg g Hg).
      pose proof (Loc_bounds _ _ I1) as (_ & _ & B & _). specialize (B e).
      assert (exe (rk s r) g e w <= cnt (tg (rk s r) g) e + 1); [|lia].
      unfold PkgOk in I3. destruct (_ =? 1); [destruct (stat _ _ _ _)|]; try lia.
    + apply sum_bound. intros w _. destruct (cur (rk s r) w); cbn; lia.
  - apply sum_bound. intros i Hi. destruct (greach_ch G s WF R i Hi) as ((HS & _) & (HR & _) & _).
    destruct (WF i Hi) as (W1 & W2 & W3 & W4 & _).
    set (c := ch G i) in *. set (n := net s i) in *.
    assert (BG : begun (tg (rk s (cS c)) (cG c)) <= NB G + 2).
    { destruct (greach_inv G s R (cS c)) as ((I1 & _) & _).
      pose proof (Loc_bounds _ _ (I1 (cG c) W3)) as (B1 & _).
      pose proof (sum_ge (gT G) (fun g => nReq (rcfg G 0) g) _ W3) as NBg. cbv beta in NBg. fold (NB G) in NBg.
      change (nReq (rcfg G 0) (cG c)) with (nReq (rcfg G (cS c)) (cG c)) in NBg.
      unfold begun. pose proof (is1_le (cf (tg (rk s (cS c)) (cG c)) 6)). lia. }
    assert (BP : posted (tg (rk s (cR c)) (cH c)) <= NB G + 3).
    { destruct (greach_inv G s R (cR c)) as ((I1 & _) & _).
      pose proof (Loc_bounds _ _ (I1 (cH c) W4)) as (_ & B1 & _).
      pose proof (sum_ge (gT G) (fun g => nReq (rcfg G 0) g) _ W4) as NBg. cbv beta in NBg. fold (NB G) in NBg.
      change (nReq (rcfg G 0) (cH c)) with (nReq (rcfg G (cR c)) (cH c)) in NBg.
      unfold posted. pose proof (is1_le (cf (tg (rk s (cR c)) (cH c)) 7)). lia. }
    assert (S1 : sN n <= NB G + 2).
    { rewrite HS. destruct (_ <? _); auto. etransitivity; [|exact BG]. apply Nat.div_le_upper_bound; lia. }
    assert (S2 : rN n <= NB G + 4).
    { rewrite HR. destruct (cH c <? cG c); [apply Nat.div_le_upper_bound; lia|]. etransitivity; [exact BP|lia]. }
    unfold CM. destruct (sAct n), (sTst n), (rAct n), (rTst n); cbn [negb b2n]; lia.
Qed.

(* ------------------------------------------------------------------ *)
(** * Executions *)

(** an infinite execution: states and actions, [None] if nothing happens *)
Definition execution (G : gcfg) (st : nat -> gst) (la : nat -> option glabel) : Prop :=
  (exists b0 sb0 sT rT rb, st 0 = ginit b0 sb0 sT rT rb) /\
  forall i, match la i with
            | Some l => gstep G (st i) l = GNext (st (S i))
            | None => st (S i) = st i
            end.

Definition worker_of (l : label) (w : nat) : Prop :=
  match l with LSched _ => False | LGet w' _ _ | LStart w' | LDone w' => w' = w end.

(** worker [w] of rank [r] has nothing to do *)
Definition no_work (G : gcfg) (s : gst) (r w : nat) : Prop :=
  cur (rk s r) w = Idle /\ forall g e, g < gT G -> e < 6 -> stat (rk s r) g e w <> RDY.

(** Fairness: again and again, until the end, every scheduling thread gets to run, every worker which has something to do
    does something, and every message that can complete (a send: its receive is posted; a receive: its message was sent) is
    found to be complete. *)
Record fair (G : gcfg) (st : nat -> gst) (la : nat -> option glabel) : Prop := mkFair {
  f_sched : forall r i, r < gR G -> exists j, i <= j /\ (la j = Some (GSched r) \/ fin (rk (st j) r) = true);
  f_work : forall r w i, r < gR G -> w < gW G r ->
     exists j, i <= j /\ ((exists l, la j = Some (GWork r l) /\ worker_of l w) \/ no_work G (st j) r w);
  f_send : forall c i, c < length (gC G) ->
     exists j, i <= j /\ (la j = Some (GTestS c) \/ ~ (sAct (net (st j) c) = true /\ sN (net (st j) c) <= rN (net (st j) c)));
  f_recv : forall c i, c < length (gC G) ->
     exists j, i <= j /\ (la j = Some (GTestR c) \/ ~ (rAct (net (st j) c) = true /\ rD (net (st j) c) < sN (net (st j) c)))
}.

Lemma exec_greach G st la : execution G st la -> forall i, greach G (st i).
Proof.
  intros [(b0 & sb0 & sT & rT & rb & E0) ES]. induction i as [|i IH].
  - rewrite E0. constructor.
  - specialize (ES i). destruct (la i) as [l|].
    + econstructor; eauto.
    + now rewrite ES.
Qed.

Lemma exec_step G st la : execution G st la -> forall i,
  M G (st i) < M G (st (S i)) \/
  (M G (st (S i)) = M G (st i) /\ same (st i) (st (S i)) /\
   (forall r, la i <> Some (GSched r) -> rk (st (S i)) r = rk (st i) r)).
Proof.
  intros EX i. pose proof (proj2 EX i) as ES. destruct (la i) as [l|].
  - destruct (step_gain G _ _ _ (exec_greach G st la EX i) ES) as [H|(H1 & H2 & H3)]; [auto|].
    right. split; [auto|]. split; [auto|]. intros r Ne.
    destruct (H3 r) as [X|X]; [congruence|auto|now rewrite X].
  - right. rewrite ES. split; auto. split; [apply same_refl|auto].
Qed.

Lemma exec_mono G st la : execution G st la -> forall i k, 
  M G (st i) < M G (st (i + k)) \/ (M G (st (i + k)) = M G (st i) /\ same (st i) (st (i + k))).
Proof.
  intros EX i. induction k as [|k IH].
  - rewrite Nat.add_0_r. right. split; auto. apply same_refl.
  - replace (i + S k) with (S (i + k)) by lia.
    destruct (exec_step G st la EX (i + k)) as [H|(H1 & H2 & _)]; destruct IH as [IH|[IH1 IH2]].
    + left. lia.
    + left. lia.
    + left. lia.
    + right. split; [lia|]. eapply same_trans; eauto.
Qed.

Lemma exec_mono' G st la : execution G st la -> forall i j, i <= j ->
  M G (st i) < M G (st j) \/ (M G (st j) = M G (st i) /\ same (st i) (st j)).
Proof. intros EX i j H. replace j with (i + (j - i)) by lia. now apply (exec_mono G st la). Qed.

Lemma sched_pc c mpi s s' ev : Inv c s -> FinInv c s -> sched_step c mpi s = Next s' ev -> 
  (exists g b s1, nth_error (prog c) (pc s) = Some (I g b) /\ run_blk c mpi s g b = Next s1 ev /\
     pc s' = S (pc s) /\ fin s' = fin s /\ nFin s' = nFin s1 /\ tg s' = tg s1 /\ pc s < 19 * nT c + 1 /\ pc s <> 9 * nT c) \/
  (pc s = 9 * nT c /\ pc s' = S (pc s) /\ fin s' = fin s /\ nFin s' = 0) \/
  (pc s = 19 * nT c + 1 /\ pc s' = 0 /\ fin s' = (nFin s =? nT c)).
Proof.
  intros HI HF E. unfold sched_step in E. destruct (fin s) eqn:Ef; [discriminate|].
  destruct (nth_error (prog c) (pc s)) as [[g b| |]|] eqn:Epc; try discriminate.
  - destruct (run_blk c mpi s g b) as [s1 ev1| |] eqn:EB; try discriminate. injection E as <- <-. left.
    exists g, b, s1. cbn [pc set_pc fin nFin tg].
    pose proof (nth_prog_group _ _ _ _ Epc) as Hg.
    destruct (run_blk_inv c mpi s g b HI Hg) as (s2 & ev2 & E2 & _ & P2 & _).
    rewrite E2 in EB. injection EB as -> ->.
    destruct (blk_fin _ _ _ _ _ _ _ E2) as (F1 & _). rewrite nth_prog in Epc.
    assert (pc s < 19 * nT c + 1 /\ pc s <> 9 * nT c).
    { destruct (Nat.ltb_spec (pc s) (9 * nT c)); [lia|]. destruct (Nat.eqb_spec (pc s) (9 * nT c)); [discriminate|].
      destruct (Nat.ltb_spec (pc s) (19 * nT c + 1)); [lia|]. destruct (Nat.eqb_spec (pc s) (19 * nT c + 1)); discriminate. }
    rewrite <- nth_prog in Epc. repeat (split; [first [assumption|congruence|tauto]|]). tauto.
  - injection E as <- <-. right. left. cbn. rewrite nth_prog in Epc.
    destruct (Nat.ltb_spec (pc s) (9 * nT c)).
    { destruct (nth_error loop1 _); discriminate. }
    destruct (Nat.eqb_spec (pc s) (9 * nT c)); [auto|].
    destruct (Nat.ltb_spec (pc s) (19 * nT c + 1)).
    { destruct (nth_error loop2 _); discriminate. }
    destruct (Nat.eqb_spec (pc s) (19 * nT c + 1)); discriminate.
  - injection E as <- <-. right. right. cbn. rewrite nth_prog in Epc.
    destruct (Nat.ltb_spec (pc s) (9 * nT c)).
    { destruct (nth_error loop1 _); discriminate. }
    destruct (Nat.eqb_spec (pc s) (9 * nT c)); [discriminate|].
    destruct (Nat.ltb_spec (pc s) (19 * nT c + 1)).
    { destruct (nth_error loop2 _); discriminate. }
    destruct (Nat.eqb_spec (pc s) (19 * nT c + 1)); [auto|discriminate].
Qed.

Lemma prog_has c g b : g < nT c -> exists p, nth_error (prog c) p = Some (I g b) /\ p < 19 * nT c + 2.
Proof.
  intros Hg. assert (IN : In (I g b) (prog c)).
  { unfold prog. assert (B : In b loop1 \/ In b loop2) by (destruct b; cbn; tauto).
    destruct B as [B|B]; apply in_or_app; [left|right; apply in_or_app; right; apply in_or_app; left];
      apply in_flat_map; exists g; (split; [apply in_seq; lia|now apply in_map]). }
  apply In_nth_error in IN as [p E]. exists p. split; auto. rewrite nth_prog in E.
  destruct (Nat.ltb_spec p (9 * nT c)); [lia|]. destruct (Nat.eqb_spec p (9 * nT c)); [lia|].
  destruct (Nat.ltb_spec p (19 * nT c + 1)); [lia|]. destruct (Nat.eqb_spec p (19 * nT c + 1)); discriminate.
Qed.

Lemma forallb_ext' {A} (f g : A -> bool) l : (forall x, In x l -> f x = g x) -> forallb f l = forallb g l.
Proof. induction l; cbn; intros H; auto. rewrite H by auto. f_equal. auto. Qed.

Lemma guard_same G s s' r g b : same s s' ->
  guard_ (rcfg G r) (blk_mpi G s' r g b) (rk s' r) g b = guard_ (rcfg G r) (blk_mpi G s r g b) (rk s r) g b.
Proof.
  intros (T1 & T2 & T3 & T4).
  assert (AF : forall e, allFin (rcfg G r) (rk s' r) g e = allFin (rcfg G r) (rk s r) g e).
  { intros e. unfold allFin. apply forallb_ext'. intros w _. now rewrite T2. }
  assert (B : blk_mpi G s' r g b = blk_mpi G s r g b).
  { destruct b; cbn [blk_mpi]; auto; rewrite T1; unfold finSends, finRecvs; apply forallb_ext'; intros i _; now rewrite T4. }
  rewrite B. destruct b; cbn [guard_]; unfold predAvailable, predConsumed; rewrite ?T1, ?AF; reflexivity.
Qed.

Lemma done_guard c mpi s g b : Loc (nReq c g) (tg s g) -> doneb (tg s g) = true -> guard_ c mpi s g b = false.
Proof.
  intros L D. destruct (done_facts _ _ L D) as (D0 & D1 & D2 & D3 & D4 & D5 & D6 & D7 & _).
  destruct b; cbn [guard_]; unfold cfe; rewrite ?D0, ?D1, ?D2, ?D3, ?D4, ?D5, ?D6, ?D7; reflexivity.
Qed.

Section Live.
Variables (G : gcfg) (st : nat -> gst) (la : nat -> option glabel).
Hypothesis WF : wf G.
Hypothesis EX : execution G st la.
Hypothesis FA : fair G st la.

(** if every pass through an instruction brings the scheduler of rank [r] closer to something, it gets there *)
Lemma sched_leads r i (D : rst -> nat) : r < gR G ->
  (forall j, i <= j -> same (st i) (st j) -> fin (rk (st j) r) = false -> la j = Some (GSched r) ->
             M G (st (S j)) = M G (st j) -> D (rk (st (S j)) r) < D (rk (st j) r)) ->
  exists j, i <= j /\ (M G (st i) < M G (st j) \/ fin (rk (st j) r) = true).
Proof.
  intros Hr HD.
  assert (K : forall d k, i <= k -> D (rk (st k) r) <= d ->
     exists j, i <= j /\ (M G (st i) < M G (st j) \/ fin (rk (st j) r) = true)).
  { induction d as [d IHd] using lt_wf_ind. intros k Hk Hd.
    destruct (f_sched _ _ _ FA r k Hr) as (j & Hj & F).
    remember (j - k) as x eqn:Ex. revert k Hk Hd Hj Ex. induction x as [|x IHx]; intros k Hk Hd Hj Ex.
    - assert (j = k) as -> by lia. destruct (fin (rk (st k) r)) eqn:Ef; [exists k; split; [lia|auto]|].
      destruct F as [F|F]; [|congruence].
      destruct (exec_mono' G st la EX i k Hk) as [L|[_ SA]]; [exists k; split; [lia|auto]|].
      destruct (exec_step G st la EX k) as [L|(L & _ & _)].
      + exists (S k). split; [lia|]. left. destruct (exec_mono' G st la EX i k Hk) as [L'|[L' _]]; lia.
      + pose proof (HD k Hk SA Ef F L) as LT.
        apply (IHd (D (rk (st (S k)) r)) ltac:(lia) (S k)); [lia|lia].
    - destruct (fin (rk (st k) r)) eqn:Ef; [exists k; split; [lia|auto]|].
      destruct (exec_mono' G st la EX i k Hk) as [L|[_ SA]]; [exists k; split; [lia|auto]|].
      destruct (exec_step G st la EX k) as [L|(L & SA' & RK)].
      + exists (S k). split; [lia|]. left. destruct (exec_mono' G st la EX i k Hk) as [L'|[L' _]]; lia.
      + assert (LE : la k = Some (GSched r) \/ la k <> Some (GSched r)).
        { destruct (la k) as [[r0|r0 l|c|c]|]; try (right; discriminate).
          destruct (Nat.eq_dec r0 r) as [->|]; [left; auto|right; congruence]. }
        destruct LE as [LE|LE].
        * pose proof (HD k Hk SA Ef LE L) as LT.
          apply (IHd (D (rk (st (S k)) r)) ltac:(lia) (S k)); [lia|lia].
        * apply (IHx (S k)); [lia|rewrite RK by auto; lia|lia|lia]. }
  apply (K (D (rk (st i) r)) i); auto.
Qed.

Let GR := exec_greach G st la EX.

(** an enabled block is executed *)
Lemma block_leads r g b i : r < gR G -> g < gT G ->
  guard_ (rcfg G r) (blk_mpi G (st i) r g b) (rk (st i) r) g b = true ->
  exists j, i <= j /\ M G (st i) < M G (st j).
Proof.
  intros Hr Hg GD. destruct (prog_has (rcfg G r) g b Hg) as (p & Ep & Hp).
  change (nT (rcfg G r)) with (gT G) in *.
  destruct (sched_leads r i (fun s => if pc s <=? p then p - pc s else 19 * gT G + 2 - pc s + p) Hr) as (j & Hj & [L|F]).
  - intros j Hj SA Ef LA ME.
    pose proof (proj2 EX j) as ES. rewrite LA in ES. cbn [gstep] in ES.
    replace (r <? gR G) with true in ES by (symmetry; now apply Nat.ltb_lt).
    unfold rank_step in ES. cbn [rstep] in ES.
    destruct (sched_step (rcfg G r) (mpi_answer G (st j) r) (rk (st j) r)) as [s1 ev| |] eqn:E1; try discriminate.
    injection ES as ES. rewrite <- ES. cbn [rk]. rewrite fset_eq.
    destruct (greach_inv G _ (GR j) r) as [HI HF]. pose proof HF as (_ & _ & HP).
    change (nT (rcfg G r)) with (gT G) in HP.
    destruct (sched_pc _ _ _ _ _ HI HF E1) as [(g' & b' & s2 & Epc & EB & P' & _ & _ & T' & B1 & B2)|[(P0 & P' & _)|(P0 & P' & _)]];
      change (nT (rcfg G r)) with (gT G) in *.
    + destruct (Nat.eq_dec (pc (rk (st j) r)) p) as [X|X].
      * exfalso. rewrite X, Ep in Epc. injection Epc as <- <-. rewrite <- X in Ep.
        rewrite (mpi_answer_blk _ _ _ _ _ Ep) in EB.
        pose proof (blk_gain _ _ _ _ _ _ _ HI Hg ltac:(rewrite (guard_same G (st i) (st j)) by auto; exact GD) EB) as W.
        destruct (exec_step G st la EX j) as [L|(_ & (S1 & _) & _)]; [lia|].
        specialize (S1 r g). rewrite <- ES in S1. cbn [rk] in S1. rewrite fset_eq in S1. rewrite T' in S1. rewrite S1 in W. lia.
      * rewrite P'. destruct (Nat.leb_spec (pc (rk (st j) r)) p), (Nat.leb_spec (S (pc (rk (st j) r))) p); lia.
    + rewrite P', P0. destruct (Nat.eq_dec p (9 * gT G)) as [X|X].
      * exfalso. rewrite X, nth_prog in Ep. change (nT (rcfg G r)) with (gT G) in Ep. rewrite Nat.ltb_irrefl, Nat.eqb_refl in Ep. discriminate.
      * destruct (Nat.leb_spec (9 * gT G) p), (Nat.leb_spec (S (9 * gT G)) p); lia.
    + rewrite P', P0. destruct (Nat.eq_dec p (19 * gT G + 1)) as [X|X].
      * exfalso. rewrite X, nth_prog in Ep. change (nT (rcfg G r)) with (gT G) in Ep.
        replace (19 * gT G + 1 <? 9 * gT G) with false in Ep by lia.
        replace (19 * gT G + 1 =? 9 * gT G) with false in Ep by lia. rewrite Nat.ltb_irrefl, Nat.eqb_refl in Ep. discriminate.
      * destruct (Nat.leb_spec (19 * gT G + 1) p); cbn [Nat.leb]; lia.
  - eauto.
  - destruct (exec_mono' G st la EX i j Hj) as [L|[_ SA]]; [eauto|]. exfalso.
    destruct (greach_inv G _ (GR j) r) as [HI (_ & HF & _)]. pose proof (HF F g Hg) as D.
    rewrite <- (guard_same G (st i) (st j) r g b SA) in GD.
    rewrite done_guard in GD; [discriminate|apply (proj1 HI); exact Hg|exact D].
Qed.

Definition good (s : rst) : bool := (pc s <=? 9 * gT G) || (nFin s =? (pc s - (9 * gT G + 1)) / 10).

(** if all groups of a rank are done, the scheduler finds out *)
Lemma finish_leads r i : r < gR G -> (forall g, g < gT G -> doneb (tg (rk (st i) r) g) = true) ->
  exists j, i <= j /\ (M G (st i) < M G (st j) \/ fin (rk (st j) r) = true).
Proof.
  intros Hr DN.
  apply (sched_leads r i (fun s => if fin s then 0 else (if good s then 0 else 19 * gT G + 2) + (19 * gT G + 2 - pc s)) Hr).
  intros j Hj SA Ef LA ME.
  pose proof (proj2 EX j) as ES. rewrite LA in ES. cbn [gstep] in ES.
  replace (r <? gR G) with true in ES by (symmetry; now apply Nat.ltb_lt).
  unfold rank_step in ES. cbn [rstep] in ES.
  destruct (sched_step (rcfg G r) (mpi_answer G (st j) r) (rk (st j) r)) as [s1 ev| |] eqn:E1; try discriminate.
  injection ES as ES. rewrite <- ES. cbn [rk]. rewrite fset_eq.
  destruct (greach_inv G _ (GR j) r) as [HI HF]. pose proof HF as (_ & _ & HP).
  change (nT (rcfg G r)) with (gT G) in HP.
  set (s := rk (st j) r) in *. rewrite Ef.
  destruct (sched_pc _ _ _ _ _ HI HF E1) as [(g & b & s2 & Epc & EB & P' & F' & N' & T' & B1 & B2)|[(P0 & P' & F' & N')|(P0 & P' & F')]];
    change (nT (rcfg G r)) with (gT G) in *.
  - rewrite F', Ef, P'.
    pose proof (nth_prog_group _ _ _ _ Epc) as Hg.
    assert (D : doneb (tg s g) = true). { unfold s. rewrite (proj1 SA). apply DN. exact Hg. }
    assert (GP : good s = true -> good s1 = true); [|destruct (good s); [rewrite GP by auto; lia|destruct (good s1); lia]].
    unfold good. rewrite P', N'. intros GS.
    destruct (Nat.ltb_spec (pc s) (9 * gT G)) as [LT|GE].
    { replace (S (pc s) <=? 9 * gT G) with true by lia. reflexivity. }
    destruct (Nat.leb_spec (S (pc s)) (9 * gT G)); [lia|]. cbn [orb].
    destruct (Nat.leb_spec (pc s) (9 * gT G)) as [X|X]; [lia|]. cbn [orb] in GS. apply Nat.eqb_eq in GS.
    destruct (nth_prog_count (rcfg G r) (pc s) g b X Epc) as (G1 & G2 & G3). change (nT (rcfg G r)) with (gT G) in *.
    destruct (blk_fin _ _ _ _ _ _ _ EB) as (_ & NF & _).
    assert (BD : b = Scount \/ b <> Scount) by (destruct b; auto; right; discriminate).
    destruct BD as [->|BD].
    + rewrite (G2 eq_refl). unfold run_blk in EB. rewrite finished_done in EB by (apply (proj1 HI); exact Hg).
      rewrite D in EB. injection EB as <- _. cbn [nFin]. apply Nat.eqb_eq. lia.
    + rewrite (G3 BD), (NF BD). apply Nat.eqb_eq. lia.
  - rewrite F', Ef, P'.
    assert (good s1 = true) as ->.
    { unfold good. rewrite P', N', P0. replace (S (9 * gT G) - (9 * gT G + 1)) with 0 by lia. rewrite Nat.div_0_l by lia. apply orb_true_r. }
    destruct (good s); lia.
  - rewrite F', P'. destruct (Nat.eqb_spec (nFin s) (gT G)) as [X|X].
    + destruct (good s); lia.
    + assert (good s1 = true) as ->. { unfold good. rewrite P'. reflexivity. }
      assert (good s = false) as ->.
      { unfold good. rewrite P0. replace (19 * gT G + 1 <=? 9 * gT G) with false by lia. cbn [orb].
        replace (19 * gT G + 1 - (9 * gT G + 1)) with (gT G * 10) by lia. rewrite Nat.div_mul by lia. now apply Nat.eqb_neq. }
      lia.
Qed.

Lemma fin_stable r i : fin (rk (st i) r) = true -> forall j, i <= j -> fin (rk (st j) r) = true.
Proof.
  intros F j Hj. replace j with (i + (j - i)) by lia. generalize (j - i). clear j Hj. intros k.
  induction k as [|k IH]; [now rewrite Nat.add_0_r|]. replace (i + S k) with (S (i + k)) by lia.
  set (m := i + k) in *. pose proof (proj2 EX m) as ES. destruct (la m) as [l|]; [|now rewrite ES].
  assert (RS : forall r0 l0, rank_step G (st m) r0 l0 = GNext (st (S m)) -> fin (rk (st (S m)) r) = true).
  { intros r0 l0 E0. unfold rank_step in E0. destruct (rstep (rcfg G r0) (rk (st m) r0) l0) as [s1 ev| |] eqn:E1; try discriminate.
    injection E0 as <-. cbn [rk]. destruct (Nat.eq_dec r r0) as [<-|]; [rewrite fset_eq|now rewrite fset_ne by auto].
    destruct l0 as [mpi|w g e|w|w]; cbn [rstep] in E1.
    - unfold sched_step in E1. rewrite IH in E1. discriminate.
    - unfold get_step in E1. destruct (negb _); [discriminate|]. destruct (cur _ w); try discriminate.
      destruct (status_eqb _ _); [|discriminate]. now injection E1 as <- _.
    - unfold start_step in E1. destruct (cur _ w); try discriminate. destruct (negb _); [discriminate|]. now injection E1 as <- _.
    - unfold done_step in E1. destruct (cur _ w); try discriminate. destruct (negb _); [discriminate|]. now injection E1 as <- _. }
  destruct l as [r0|r0 l0|c|c]; cbn [gstep] in ES.
  - destruct (r0 <? gR G); [|discriminate]. eauto.
  - destruct l0; try discriminate; (destruct (r0 <? gR G); [|discriminate]); eauto.
  - destruct (c <? _); [|discriminate]. injection ES as <-. exact IH.
  - destruct (c <? _); [|discriminate]. destruct (testRecv _); [|discriminate]. injection ES as <-. exact IH.
Qed.

Lemma dec_forall n (P : nat -> bool) : (forall x, x < n -> P x = true) \/ (exists x, x < n /\ P x = false).
Proof.
  induction n as [|n IH]; [left; intros; lia|].
  destruct IH as [IH|(x & Hx & E)]; [|right; exists x; split; [lia|auto]].
  destruct (P n) eqn:E; [left|right; eauto]. intros x Hx. destruct (Nat.eq_dec x n) as [->|]; auto. apply IH. lia.
Qed.

Definition no_workb (s : gst) (r w : nat) : bool :=
  match cur (rk s r) w with Idle => true | _ => false end &&
  forallb (fun g => forallb (fun e => negb (status_eqb (stat (rk s r) g e w) RDY)) (seq 0 6)) (seq 0 (gT G)).

Lemma no_workb_spec s r w : no_workb s r w = true <-> no_work G s r w.
Proof.
  unfold no_workb, no_work. rewrite andb_true_iff, forallb_forall. split.
  - intros [H1 H2]. split; [destruct (cur (rk s r) w); congruence|].
    intros g e Hg He. specialize (H2 g ltac:(apply in_seq; lia)). rewrite forallb_forall in H2.
    specialize (H2 e ltac:(apply in_seq; lia)). intros E. rewrite E in H2. discriminate.
  - intros [-> H2]. split; auto. intros g Hg. apply in_seq in Hg. apply forallb_forall. intros e He. apply in_seq in He.
    apply negb_true_iff. destruct (status_eqb _ _) eqn:E; auto. apply status_eqb_iff in E. now destruct (H2 g e ltac:(lia) ltac:(lia)).
Qed.

Definition blks : list blk := loop1 ++ loop2.

(** either nothing can happen or the run gets further *)
Lemma quiet_or i : quiet G (st i) \/ exists j, i <= j /\ M G (st i) < M G (st j).
Proof.
  (* workers *)
  destruct (dec_forall (gR G) (fun r => forallb (no_workb (st i) r) (seq 0 (gW G r)))) as [QW|(r & Hr & E)].
  2: { right.
       assert (X : exists w, w < gW G r /\ no_workb (st i) r w = false).
       { destruct (dec_forall (gW G r) (no_workb (st i) r)) as [A|A]; auto. exfalso.
         rewrite (proj2 (forallb_forall _ _)) in E; [discriminate|]. intros w Hw. apply in_seq in Hw. apply A. lia. }
       destruct X as (w & Hw & E').
       destruct (f_work _ _ _ FA r w i Hr Hw) as (j & Hj & F).
       destruct (exec_mono' G st la EX i j Hj) as [L|[ME (S1 & S2 & S3 & S4)]]; [exists j; auto|].
       destruct F as [(l & LA & WO)|NW].
       - exists (S j). split; [lia|]. destruct (exec_step G st la EX j) as [L|(ME' & SA' & _)]; [lia|].
         exfalso. pose proof (proj2 EX j) as ES. rewrite LA in ES. cbn [gstep] in ES.
         assert (ES' : rank_step G (st j) r l = GNext (st (S j)) /\ forall mpi, l <> LSched mpi).
         { destruct l; try contradiction; (destruct (r <? gR G); [|discriminate]); split; auto; discriminate. }
         destruct ES' as [ES' NL]. unfold rank_step in ES'.
         destruct (rstep (rcfg G r) (rk (st j) r) l) as [s1 ev| |] eqn:E1; try discriminate.
         pose proof (work_gain _ _ _ _ _ (proj1 (greach_inv G _ (GR j) r)) E1 NL) as W.
         injection ES' as ES'. clear ES. 
         assert (M G (st j) < M G (st (S j))); [|lia]. rewrite <- ES'. unfold M. cbn [rk net]. apply Nat.add_lt_le_mono.
         + apply sum_lt; [intros x _; destruct (Nat.eq_dec x r) as [->|]; [rewrite fset_eq; lia|now rewrite fset_ne by auto]
                         |exists r; split; [auto|now rewrite fset_eq]].
         + apply sum_le. intros x _. apply CM_ev.
       - exfalso. apply no_workb_spec in NW.
         assert (EQ : no_workb (st j) r w = no_workb (st i) r w).
         { unfold no_workb. rewrite S3. f_equal. apply forallb_ext'. intros g _. apply forallb_ext'. intros e _. now rewrite S2. }
         congruence. }
  (* sends *)
  destruct (dec_forall (length (gC G)) (fun c => negb (sAct (net (st i) c)) || (rN (net (st i) c) <? sN (net (st i) c)))) as [QS|(c & Hc & E)].
  2: { right. apply orb_false_elim in E as [E1 E2]. apply negb_false_iff in E1. apply Nat.ltb_ge in E2.
       destruct (f_send _ _ _ FA c i Hc) as (j & Hj & F).
       destruct (exec_mono' G st la EX i j Hj) as [L|[ME (S1 & S2 & S3 & S4)]]; [exists j; auto|].
       destruct F as [LA|F]; [|rewrite S4 in F; now destruct F].
       exists (S j). split; [lia|]. pose proof (proj2 EX j) as ES. rewrite LA in ES. cbn [gstep] in ES.
       destruct (c <? _); [|discriminate]. injection ES as ES. rewrite <- ME, <- ES.
       unfold M. cbn [rk net]. apply Nat.add_lt_mono_l, sum_lt.
       - intros x _. destruct (Nat.eq_dec x c) as [->|]; [rewrite fset_eq|now rewrite fset_ne].
         rewrite S4. unfold CM, testSend. cbn [sN sAct sTst rN rAct rTst]. rewrite E1. destruct (sTst (net (st i) c)); cbn; lia.
       - exists c. split; auto. rewrite fset_eq. rewrite S4. unfold CM, testSend. cbn [sN sAct sTst rN rAct rTst]. rewrite E1.
         destruct (sTst (net (st i) c)); cbn; lia. }
  (* receives *)
  destruct (dec_forall (length (gC G)) (fun c => negb (rAct (net (st i) c)) || (sN (net (st i) c) <=? rD (net (st i) c)))) as [QR|(c & Hc & E)].
  2: { right. apply orb_false_elim in E as [E1 E2]. apply negb_false_iff in E1. apply Nat.leb_gt in E2.
       destruct (f_recv _ _ _ FA c i Hc) as (j & Hj & F).
       destruct (exec_mono' G st la EX i j Hj) as [L|[ME (S1 & S2 & S3 & S4)]]; [exists j; auto|].
       destruct F as [LA|F]; [|rewrite S4 in F; now destruct F].
       exists (S j). split; [lia|]. pose proof (proj2 EX j) as ES. rewrite LA in ES. cbn [gstep] in ES.
       destruct (c <? _); [|discriminate]. unfold testRecv in ES. rewrite S4, E1 in ES.
       replace (rD (net (st i) c) <? sN (net (st i) c)) with true in ES by (symmetry; now apply Nat.ltb_lt).
       injection ES as ES. rewrite <- ME, <- ES.
       unfold M. cbn [rk net]. apply Nat.add_lt_mono_l, sum_lt.
       - intros x _. destruct (Nat.eq_dec x c) as [->|]; [rewrite fset_eq|now rewrite fset_ne].
         rewrite S4. unfold CM. cbn [sN sAct sTst rN rAct rTst]. rewrite E1. destruct (rTst (net (st i) c)); cbn; lia.
       - exists c. split; auto. rewrite fset_eq. rewrite S4. unfold CM. cbn [sN sAct sTst rN rAct rTst]. rewrite E1.
         destruct (rTst (net (st i) c)); cbn; lia. }
  (* blocks *)
  destruct (dec_forall (gR G) (fun r => forallb (fun g => forallb (fun b =>
     negb (guard_ (rcfg G r) (blk_mpi G (st i) r g b) (rk (st i) r) g b)) blks) (seq 0 (gT G)))) as [QB|(r & Hr & E)].
  2: { right.
       assert (X : exists g b, g < gT G /\ guard_ (rcfg G r) (blk_mpi G (st i) r g b) (rk (st i) r) g b = true).
       { destruct (dec_forall (gT G) (fun g => forallb (fun b =>
           negb (guard_ (rcfg G r) (blk_mpi G (st i) r g b) (rk (st i) r) g b)) blks)) as [A|(g & Hg & A)].
         - exfalso. rewrite (proj2 (forallb_forall _ _)) in E; [discriminate|]. intros g Hg. apply in_seq in Hg. apply A. lia.
         - exists g. clear E. induction blks as [|b l IH]; [discriminate|]. cbn [forallb] in A.
           apply andb_false_iff in A as [A|A]; [|auto]. exists b. split; auto. now apply negb_false_iff. }
       destruct X as (g & b & Hg & X). apply (block_leads r g b i Hr Hg X). }
  left. split.
  - intros r w Hr Hw. apply no_workb_spec. specialize (QW r Hr). rewrite forallb_forall in QW. apply QW, in_seq. lia.
  - intros c Hc A. specialize (QS c Hc). cbv beta in QS. rewrite A in QS. cbn [negb orb] in QS. now apply Nat.ltb_lt.
  - intros c Hc A. specialize (QR c Hc). cbv beta in QR. rewrite A in QR. cbn [negb orb] in QR. now apply Nat.leb_le.
  - intros r g b Hr Hg. specialize (QB r Hr). rewrite forallb_forall in QB. specialize (QB g ltac:(apply in_seq; lia)).
    rewrite forallb_forall in QB. specialize (QB b ltac:(unfold blks; destruct b; cbn; tauto)). now apply negb_true_iff.
Qed.

Theorem fair_fin : exists j, forall r, r < gR G -> fin (rk (st j) r) = true.
Proof.
  assert (K : forall d i, bound G - M G (st i) <= d -> exists j, forall r, r < gR G -> fin (rk (st j) r) = true).
  { induction d as [d IHd] using lt_wf_ind. intros i Hd.
    assert (NXT : (exists j, i <= j /\ M G (st i) < M G (st j)) -> exists j, forall r, r < gR G -> fin (rk (st j) r) = true).
    { intros (j & Hj & L). pose proof (M_bound G (st j) WF (GR j)) as B.
      apply (IHd (bound G - M G (st j)) ltac:(lia) j). lia. }
    destruct (quiet_or i) as [Q|X]; [|auto].
    assert (DN : forall r g, r < gR G -> g < gT G -> doneb (tg (rk (st i) r) g) = true).
    { intros r g Hr Hg. apply (quiet_done G (st i) WF (GR i) Q r g Hr Hg). }
    assert (P : forall k, k <= gR G -> (exists j, i <= j /\ M G (st i) < M G (st j)) \/
                                      (exists j, i <= j /\ forall r, r < k -> fin (rk (st j) r) = true)).
    { induction k as [|k IHk]; intros Hk; [right; exists i; split; [lia|intros; lia]|].
      destruct (IHk ltac:(lia)) as [X|(j & Hj & F)]; [left; auto|].
      destruct (finish_leads k i ltac:(lia) (fun g => DN k g ltac:(lia))) as (j' & Hj' & [L|F']).
      - left. eauto.
      - right. exists (Nat.max j j'). split; [lia|]. intros r Hr. destruct (Nat.eq_dec r k) as [->|].
        + apply (fin_stable k j' F'). lia.
        + apply (fin_stable r j); [apply F; lia|lia]. }
    destruct (P (gR G) (le_n _)) as [X|(j & _ & F)]; [auto|]. exists j. exact F. }
  apply (K (bound G - M G (st 0)) 0). lia.
Qed.
End Live.
