(** Proofs about the loop over the synchronization points. *)
From Verif Require Import Util TimeGroup MainLoop MainLoopSpec Props_Time.
From Coq Require Import QArith Lqa.
Local Open Scope Q_scope.

Lemma qlt_t a b : qlt a b = true <-> a < b.
Proof.
  unfold qlt. rewrite negb_true_iff. split.
  - intros H. apply Qnot_le_lt. intros L. apply Qle_bool_iff in L. congruence.
  - intros H. apply not_true_iff_false. intros L. apply Qle_bool_iff in L. lra.
Qed.
Lemma qlt_f a b : qlt a b = false <-> b <= a.
Proof. unfold qlt. rewrite negb_false_iff. apply Qle_bool_iff. Qed.
Lemma qmin_le a b : qmin a b <= a /\ qmin a b <= b.
Proof. unfold qmin. destruct (qlt b a) eqn:E; [apply qlt_t in E|apply qlt_f in E]; lra. Qed.
Lemma qmin_ge a b c : c <= a -> c <= b -> c <= qmin a b.
Proof. unfold qmin. now destruct (qlt b a). Qed.
Lemma Qnat_S n : Qnat (n + 1) == Qnat n + 1.
Proof. apply Qnat_add. Qed.

Section Loop.
  Context (tol : Q) (c : conf) (HT : 0 < tol) (HW : tol < wfInt c) (HM : tol < syncMax c).
  Let next (s : mst) := Qnat (stepWf s + 1) * wfInt c.
  Definition linv (s : mst) : Prop := simT s + tol <= next s /\
    (tol < endTime c - simT s -> tol <= syncI s /\ syncI s <= next s - simT s /\ syncI s <= syncMax c).

  Definition after (s : mst) (r : list ev) : Prop :=
    (forall T, In (Sim T) r -> tol <= T /\ T <= syncMax c) /\
    endTime c - tol <= simT s + total r /\ (simT s <= endTime c -> simT s + total r <= endTime c) /\ 0 <= total r /\
    (forall i, (i < length (shots (simT s) r))%nat ->
      exists t, nth_error (shots (simT s) r) i = Some ((wrStep s + i)%nat, t) /\ instant tol (wfInt c) (stepWf s + 1 + i) t) /\
    (forall k, (stepWf s < k)%nat -> (k <= stepWf s + length (shots (simT s) r))%nat <-> Qnat k * wfInt c < simT s + total r + tol).

  Lemma Qnat_le a b : (a <= b)%nat -> Qnat a <= Qnat b.
  Proof. intros H. unfold Qnat. rewrite <- Zle_Qle. lia. Qed.

  Lemma loop_ok n : forall s, linv s -> endTime c - simT s <= Qnat n * tol + tol ->
    exists r, (forall fuel, (n <= fuel)%nat -> loop tol c fuel s = Ok r) /\ after s r.
  Proof.
    induction n as [|n IH]; intros s [I1 I2] B.
    - exists []. assert (X : qlt tol (endTime c - simT s) = false). { apply qlt_f. change (Qnat 0) with 0 in B. lra. }
      split.
      { intros fuel _. destruct fuel; cbn; now rewrite X. }
      apply qlt_f in X. repeat split; cbn; try easy; try lra; try lia.
      intros L. assert (Q1 : Qnat (stepWf s + 1) <= Qnat k) by (apply Qnat_le; lia). unfold next in I1.
      assert (Qnat (stepWf s + 1) * wfInt c <= Qnat k * wfInt c) by (apply Qmult_le_compat_r; lra). lra.
    - destruct (qlt tol (endTime c - simT s)) eqn:X.
      2:{ exists []. split.
        { intros fuel _. destruct fuel; cbn; now rewrite X. }
        apply qlt_f in X. repeat split; cbn; try easy; try lra; try lia.
        intros L. assert (Q1 : Qnat (stepWf s + 1) <= Qnat k) by (apply Qnat_le; lia). unfold next in I1.
        assert (Qnat (stepWf s + 1) * wfInt c <= Qnat k * wfInt c) by (apply Qmult_le_compat_r; lra). lra. }
      pose proof X as X'. apply qlt_t in X. destruct (I2 X) as (J1 & J2 & J3).
      set (stp := qmin (qmax 0 (endTime c - simT s)) (syncI s)).
      assert (S0 : tol <= stp /\ stp <= syncI s /\ stp <= endTime c - simT s).
      { assert (E : qmax 0 (endTime c - simT s) = endTime c - simT s). { unfold qmax. replace (qlt 0 (endTime c - simT s)) with true; [reflexivity|]. symmetry. apply qlt_t. lra. }
        unfold stp. rewrite E. pose proof (qmin_le (endTime c - simT s) (syncI s)).
        pose proof (qmin_ge (endTime c - simT s) (syncI s) tol). lra. }
      destruct (body tol c s) as [es s'] eqn:EB.
      assert (Es : es = Sim stp :: (if qlt (next s) (simT s + stp + tol) then [Wf (wrStep s) stp] else [])). { unfold body in EB. injection EB as <- _. reflexivity. }
      assert (S1 : simT s' = simT s + stp). { unfold body in EB. injection EB as _ <-. reflexivity. }
      assert (S2 : stepWf s' = if qlt (next s) (simT s + stp + tol) then S (stepWf s) else stepWf s). { unfold body in EB. injection EB as _ <-. reflexivity. }
      assert (S3 : wrStep s' = if qlt (next s) (simT s + stp + tol) then S (wrStep s) else wrStep s). { unfold body in EB. injection EB as _ <-. reflexivity. }
      assert (S4 : syncI s' = let si := qmin (qmin (next s' - simT s') (syncMax c)) (endTime c - simT s') in if qlt si tol then endTime c else si).
      { unfold body in EB. unfold next. injection EB as _ <-. reflexivity. }
      assert (N1 : simT s' + tol <= next s').
      { rewrite S1. unfold next. rewrite S2. destruct (qlt (next s) (simT s + stp + tol)) eqn:W.
        - replace (S (stepWf s) + 1)%nat with ((stepWf s + 1) + 1)%nat by lia.
          assert (Qnat (stepWf s + 1 + 1) * wfInt c == next s + wfInt c) by (unfold next; rewrite (Qnat_S (stepWf s + 1)); ring). lra.
        - apply qlt_f in W. unfold next in W. lra. }
      assert (I' : linv s').
      { split; [exact N1|]. intros X2. rewrite S4. cbv zeta.
        set (si := qmin (qmin (next s' - simT s') (syncMax c)) (endTime c - simT s')).
        assert (G : tol <= si). { apply qmin_ge; [apply qmin_ge|]; lra. }
        assert (F : qlt si tol = false) by (apply qlt_f; lra). rewrite F.
        pose proof (qmin_le (qmin (next s' - simT s') (syncMax c)) (endTime c - simT s')). fold si in H.
        pose proof (qmin_le (next s' - simT s') (syncMax c)). lra. }
      assert (B' : endTime c - simT s' <= Qnat n * tol + tol).
      { rewrite S1. replace (S n) with (n + 1)%nat in B by lia.
        assert (Qnat (n + 1) * tol == Qnat n * tol + tol) by (rewrite Qnat_S; ring). lra. }
      destruct (IH s' I' B') as (r & HL & A1 & A2 & A3 & A4 & A5 & A6).
      exists (es ++ r). split.
      { intros fuel L. destruct fuel as [|fuel]; [lia|]. cbn -[body]. rewrite X', EB, (HL fuel) by lia. reflexivity. }
      assert (TT : total (es ++ r) == stp + total r). { rewrite Es. cbn [app total]. destruct (qlt (next s) _); cbn [app total]; ring. }
      assert (SH : shots (simT s) (es ++ r) = (if qlt (next s) (simT s + stp + tol) then [(wrStep s, simT s + stp)] else []) ++ shots (simT s') r).
      { rewrite Es, S1. cbn [app shots]. now destruct (qlt (next s) _). }
      unfold after. rewrite SH. clear SH. rewrite S1 in A2, A3.
      destruct (qlt (next s) (simT s + stp + tol)) eqn:W.
      + apply qlt_t in W. subst es. repeat split; auto.
        * destruct H as [E|[E|I]]; [injection E as <-; lra|discriminate|now apply A1].
        * destruct H as [E|[E|I]]; [injection E as <-; lra|discriminate|now apply A1].
        * lra.
        * intros. lra.
        * lra.
        * intros [|i] L.
          { exists (simT s + stp). split; [cbn; now rewrite Nat.add_0_r|]. unfold instant. rewrite Nat.add_0_r. fold (next s). lra. }
          destruct (A5 i) as (t & E & In); [cbn in L; lia|]. exists t. cbn [app nth_error]. rewrite E, S3. split; [do 2 f_equal; lia|].
          replace (stepWf s + 1 + S i)%nat with (stepWf s' + 1 + i)%nat by lia. exact In.
        * intros L. destruct (Nat.eq_dec k (stepWf s + 1)) as [->|NE]; [fold (next s); lra|].
          assert (L2 : (k <= stepWf s' + length (shots (simT s') r))%nat) by (cbn in L; lia).
          apply A6 in L2; [rewrite S1 in L2; lra|lia].
        * intros L. destruct (Nat.eq_dec k (stepWf s + 1)) as [->|NE]; [cbn; lia|].
          assert (L2 : (k <= stepWf s' + length (shots (simT s') r))%nat) by (apply A6; [lia|rewrite S1; lra]). cbn; lia.
      + subst es. cbn [app] in *. rewrite S2, S3 in *. repeat split; auto.
        * destruct H as [E|I]; [injection E as <-; lra|now apply A1].
        * destruct H as [E|I]; [injection E as <-; lra|now apply A1].
        * lra.
        * intros. lra.
        * lra.
        * intros L. apply A6 in L; [rewrite S1 in L; lra|lia].
        * intros L. apply A6; [lia|rewrite S1; lra].
  Qed.
End Loop.

Lemma config_ok tol big x c : config tol big x = Ok c -> tol < wfInt c /\ tol < syncMax c /\ endTime c = xEnd x.
Proof.
  unfold config. set (wf := match xWf x with Some i => i | None => big end). set (sm := match xSync x with Some m => m | None => _ end).
  destruct (qlt tol wf) eqn:W; [|discriminate]. cbn [check bind]. destruct (qlt tol sm) eqn:M; [|discriminate]. cbn [check bind].
  intros E. injection E as <-. cbn. apply qlt_t in W, M. auto.
Qed.

Section Sync.
  Context (tol : Q) (c : conf) (HT : 0 < tol) (HW : tol < wfInt c) (HM : tol < syncMax c).
  Let w0 := qlt (wfInt c) (endTime c).

  Lemma fuel_exists : exists n, endTime c - 0 <= Qnat n * tol + tol.
  Proof.
    destruct (Qlt_le_dec (endTime c) 0) as [L|L].
    - exists 0%nat. change (Qnat 0) with 0. lra.
    - exists (Z.to_nat (Qround.Qfloor (endTime c / tol))). pose proof (full_spec (endTime c) tol L HT) as [_ U]. lra.
  Qed.

  Lemma sync_ok : exists N r, (forall fuel, (N <= fuel)%nat -> sync_loop tol c fuel = Ok ((if w0 then [Wf 0 0] else []) ++ r)) /\
    after tol c (mkMst 0 0 0 0 (if w0 then 1%nat else 0%nat)) r.
  Proof.
    destruct fuel_exists as [n B]. set (si := qmin (wfInt c) (syncMax c)).
    assert (G : tol < si). { unfold si, qmin. destruct (qlt (syncMax c) _); assumption. }
    assert (E : (if qlt (qabs si) tol then endTime c else si) = si).
    { replace (qlt (qabs si) tol) with false; [reflexivity|]. symmetry. apply qlt_f. unfold qabs.
      replace (qlt si 0) with false; [lra|]. symmetry. apply qlt_f. lra. }
    destruct (loop_ok tol c HT HW HM n (mkMst 0 si 0 0 (if w0 then 1%nat else 0%nat))) as (r & HL & A).
    - pose proof (qmin_le (wfInt c) (syncMax c)) as P. fold si in P. unfold linv. cbn [simT stepWf syncI]. change (Qnat (0 + 1)) with 1. split; [lra|]. intros _. lra.
    - exact B.
    - exists n, r. split.
      + intros fuel L. unfold sync_loop. fold si. rewrite E. fold w0. now rewrite HL.
      + exact A.
  Qed.
End Sync.

(** the time groups follow the simulated time *)
Lemma group_run nTgs tgId big dt : (tgId < nTgs)%nat -> 0 < dt -> forall es t, reachable nTgs tgId big t -> (forall T, In (Sim T) es -> 0 <= T) ->
  exists F t', (forall fuel, (F <= fuel)%nat -> groupRun fuel dt es t = Some t') /\ reachable nTgs tgId big t' /\ covSim t' == covSim t + total es.
Proof.
  intros Hid Hdt. induction es as [|[T|k a] es IH]; intros t R P.
  - exists 0%nat, t. repeat split; [assumption|]. cbn. ring.
  - assert (HT : 0 <= T) by (apply P; now left).
    destruct (C09_advance_exactly nTgs tgId big t dt T Hid R Hdt HT) as (nF & t1 & _ & AD & _ & _ & CV & _).
    set (N := ((nF + 1) * 2 ^ (nTgs - 1 - tgId))%nat) in *.
    assert (R1 : reachable nTgs tgId big t1).
    { assert (G : forall f u u', reachable nTgs tgId big u -> advance f u = Some u' -> reachable nTgs tgId big u').
      { induction f as [|f IHf]; intros u u' Ru; cbn; destruct (finishedT u); try (intros E; injection E as <-; exact Ru); [discriminate|].
        apply IHf. now constructor. }
      apply (G N (setUp dt T t)); [now constructor|apply AD; lia]. }
    destruct (IH t1 R1) as (F & t' & H1 & H2 & H3); [intros; apply P; now right|].
    exists (Nat.max N F), t'. repeat split; auto.
    + intros fuel L. cbn [groupRun]. rewrite AD by lia. apply H1. lia.
    + cbn [total]. rewrite H3, CV. ring.
  - destruct (IH t R) as (F & t' & H1 & H2 & H3); [intros; apply P; now right|]. exists F, t'. auto.
Qed.
