(** Property C87: a run of the solver ends at the end time, and takes the snapshots of the wave field at the multiples of the interval. *)
From Verif Require Import Util TimeGroup MainLoop MainLoopSpec Props_Time MainLoopP.
From Coq Require Import QArith Lqa.
Local Open Scope Q_scope.

Lemma loop_mono tol c f : forall s r f', loop tol c f s = Ok r -> (f <= f')%nat -> loop tol c f' s = Ok r.
Proof.
  induction f as [|f IH]; intros s r f' H L; destruct f' as [|f']; try lia; cbn -[body] in *; destruct (qlt tol (endTime c - simT s)); auto; try discriminate.
  destruct (body tol c s) as [es s']. destruct (loop tol c f s') as [q|] eqn:E; [|discriminate]. rewrite (IH s' q f' E) by lia. exact H.
Qed.

Lemma run_det tol big x c fuel tr : 0 < tol -> config tol big x = Ok c -> runMain tol big x fuel = Ok tr ->
  exists r, tr = (if qlt (wfInt c) (endTime c) then [Wf 0 0] else []) ++ r /\ after tol c (mkMst 0 0 0 0 (if qlt (wfInt c) (endTime c) then 1%nat else 0%nat)) r.
Proof.
  intros HT HC HR. destruct (config_ok _ _ _ _ HC) as (HW & HM & _). destruct (sync_ok tol c HT HW HM) as (N & r & HL & A).
  exists r. split; [|exact A]. unfold runMain in HR. rewrite HC in HR. cbn [bind] in HR.
  specialize (HL (Nat.max N fuel)). unfold sync_loop in HR, HL.
  set (si := if qlt (qabs _) tol then _ else _) in *. destruct (loop tol c fuel _) as [q|] eqn:E; [|discriminate]. cbn [bind] in HR. injection HR as <-.
  rewrite (loop_mono _ _ _ _ _ (Nat.max N fuel) E) in HL by lia. cbn [bind] in HL. specialize (HL ltac:(lia)). injection HL as HL.
  exact HL.
Qed.

(** A configuration is accepted if and only if its intervals are longer than the tolerance; without a maximum synchronization interval a twentieth of the
    simulated time is used, or the interval of the wave field if it is shorter. *)
Theorem C87_accepted tol big x wf : wf = match xWf x with Some i => i | None => big end ->
  ((exists c, config tol big x = Ok c) <->
    tol < wf /\ match xSync x with Some m => tol < m | None => tol < (1 # 20) * xEnd x end) /\
  (forall c, config tol big x = Ok c -> endTime c = xEnd x /\ wfInt c = wf /\
    match xSync x with Some m => syncMax c = m | None => syncMax c <= (1 # 20) * xEnd x /\ syncMax c <= wf /\ (syncMax c == (1 # 20) * xEnd x \/ syncMax c = wf) end).
Proof.
  intros ->. unfold config. set (wf := match xWf x with Some i => i | None => big end). destruct (qlt tol wf) eqn:W; cbn [check bind].
  - apply qlt_t in W. destruct (xSync x) as [m|].
    + destruct (qlt tol m) eqn:M; cbn [check bind].
      * apply qlt_t in M. split; [split; [auto|intros _; eauto]|]. intros c H. injection H as <-. cbn. auto.
      * apply qlt_f in M. split; [split; [intros (c & H); discriminate|intros (_ & H); lra]|discriminate].
    + unfold qmin. destruct (qlt wf ((1 # 20) * xEnd x)) eqn:L.
      * apply qlt_t in L. rewrite (proj2 (qlt_t _ _) W). cbn [check bind]. split; [split; [intros _; split; lra|intros _; eauto]|]. intros c H. injection H as <-. cbn [endTime wfInt syncMax].
        repeat split; try lra. now right.
      * apply qlt_f in L. destruct (qlt tol ((1 # 20) * xEnd x)) eqn:M; cbn [check bind].
        -- apply qlt_t in M. split; [split; [auto|intros _; eauto]|]. intros c H. injection H as <-. cbn [endTime wfInt syncMax]. repeat split; try lra.
        -- apply qlt_f in M. split; [split; [intros (c & H); discriminate|intros (_ & H); lra]|discriminate].
  - apply qlt_f in W. split; [split; [intros (c & H); discriminate|intros (H & _); lra]|discriminate].
Qed.
Example accepted_ex : exists c, config (1 # 1000) 1000000 (mkXml 7 (Some (1 # 2)) None) = Ok c /\ syncMax c == 7 # 20.
Proof. eexists. split; reflexivity. Qed.

(** Every accepted configuration gives a run which ends: no step is shorter than the tolerance or longer than the maximum synchronization
    interval, the end time is never passed and is reached up to the tolerance. *)
Theorem C87_end tol big x c : 0 < tol -> config tol big x = Ok c ->
  exists N tr, (forall fuel, (N <= fuel)%nat -> runMain tol big x fuel = Ok tr) /\
    (forall T, In (Sim T) tr -> tol <= T /\ T <= syncMax c) /\
    xEnd x - tol <= total tr /\ (0 <= xEnd x -> total tr <= xEnd x) /\ (xEnd x <= tol -> total tr == 0).
Proof.
  intros HT HC. destruct (config_ok _ _ _ _ HC) as (HW & HM & E). destruct (sync_ok tol c HT HW HM) as (N & r & HL & A).
  exists N, ((if qlt (wfInt c) (endTime c) then [Wf 0 0] else []) ++ r).
  assert (LE : forall fuel, (N <= fuel)%nat -> runMain tol big x fuel = Ok ((if qlt (wfInt c) (endTime c) then [Wf 0 0] else []) ++ r)).
  { intros fuel L. unfold runMain. rewrite HC. cbn [bind]. now rewrite HL. }
  assert (TE : total ((if qlt (wfInt c) (endTime c) then [Wf 0 0] else []) ++ r) = total r) by now destruct (qlt _ _).
  destruct A as (A1 & A2 & A3 & A4 & A5 & A6). cbn [simT] in *. rewrite TE, <- E. repeat split; auto.
  - apply A1. destruct (qlt _ _); [|exact H]. destruct H as [H|H]; [discriminate|exact H].
  - apply A1. destruct (qlt _ _); [|exact H]. destruct H as [H|H]; [discriminate|exact H].
  - lra.
  - intros P. specialize (A3 P). lra.
  - intros P. specialize (LE (S N) ltac:(lia)). unfold runMain, sync_loop in LE. rewrite HC in LE. cbn [bind] in LE.
    cbn -[body] in LE. rewrite (proj2 (qlt_f tol (endTime c - 0))) in LE by lra. cbn [bind] in LE. injection LE as LE.
    apply app_inv_head in LE. subst r. reflexivity.
Qed.

(** If the interval is shorter than the simulated time, then the files 0, 1, .., n show the instants 0, int, .., n int, and n is the last
    multiple which is reached: nothing is skipped, nothing is written twice. *)
Theorem C87_snapshots tol big x c fuel tr : 0 < tol -> config tol big x = Ok c -> runMain tol big x fuel = Ok tr -> wfInt c < xEnd x ->
  (forall k, (k < length (shots 0 tr))%nat -> exists t, nth_error (shots 0 tr) k = Some (k, t) /\ instant tol (wfInt c) k t) /\
  (forall k, (k < length (shots 0 tr))%nat <-> Qnat k * wfInt c < total tr + tol) /\
  (forall k, Qnat k * wfInt c < xEnd x -> (k < length (shots 0 tr))%nat).
Proof.
  intros HT HC HR LT. destruct (config_ok _ _ _ _ HC) as (HW & HM & E).
  destruct (run_det _ _ _ _ _ _ HT HC HR) as (r & -> & A). rewrite <- E in *. rewrite (proj2 (qlt_t _ _) LT) in A |- *. clear HR.
  destruct A as (A1 & A2 & A3 & A4 & A5 & A6). cbn [simT wrStep stepWf] in *. cbn [app shots total length].
  assert (K : forall k, (k < S (length (shots 0 r)))%nat <-> Qnat k * wfInt c < total r + tol).
  { intros [|k].
    - change (Qnat 0) with 0. split; [intros _; lra|lia].
    - specialize (A6 (S k) ltac:(lia)). split; intros H.
      + apply A6 in H; [lra|lia] || (assert (G : (S k <= 0 + length (shots 0 r))%nat) by lia; apply A6 in G; lra).
      + assert (G : Qnat (S k) * wfInt c < 0 + total r + tol) by lra. apply A6 in G. lia. }
  split; [|split].
  - intros [|k] L.
    + exists 0. split; [reflexivity|]. unfold instant. change (Qnat 0) with 0. lra.
    + destruct (A5 k) as (t & Et & I); [lia|]. exists t. split; [exact Et|]. exact I.
  - exact K.
  - intros k H. apply K. lra.
Qed.

(** Without an interval, or with one which is longer than the simulation, nothing is written. *)
Theorem C87_no_snapshot tol big x c fuel tr : 0 < tol -> config tol big x = Ok c -> runMain tol big x fuel = Ok tr -> 0 <= xEnd x -> xEnd x + tol <= wfInt c ->
  shots 0 tr = [].
Proof.
  intros HT HC HR P LE. destruct (config_ok _ _ _ _ HC) as (HW & HM & E).
  destruct (run_det _ _ _ _ _ _ HT HC HR) as (r & -> & A). rewrite <- E in *. rewrite (proj2 (qlt_f _ _)) in A |- * by lra.
  destruct A as (A1 & A2 & A3 & A4 & A5 & A6). cbn [simT wrStep stepWf] in *. cbn [app].
  specialize (A6 1%nat ltac:(lia)). specialize (A3 P). change (Qnat 1) with 1 in A6.
  destruct (shots 0 r) as [|y l]; [reflexivity|]. exfalso. assert (G : (1 <= 0 + length (y :: l))%nat) by (cbn; lia). apply A6 in G. lra.
Qed.

Lemma shots_app es r : forall t, exists u, u == t + total es /\ shots t (es ++ r) = shots t es ++ shots u r.
Proof.
  induction es as [|[T|k a] es IH]; intros t.
  - exists t. split; [cbn; ring|reflexivity].
  - destruct (IH (t + T)) as (u & U & S). exists u. cbn [app shots total]. split; [rewrite U; ring|exact S].
  - destruct (IH t) as (u & U & S). exists u. cbn [app shots total]. split; [exact U|now rewrite S].
Qed.

(** At every snapshot all time groups, which got the simulated times from the manager, are at the instant of the snapshot;
    at the end they are at the end time. *)
Theorem C87_groups tol big x c fuel tr nTgs tgId dt : 0 < tol -> config tol big x = Ok c -> runMain tol big x fuel = Ok tr -> (tgId < nTgs)%nat -> 0 < dt ->
  (forall es k a rest, tr = es ++ Wf k a :: rest -> wfInt c < xEnd x ->
     exists F t, (forall f, (F <= f)%nat -> groupRun f dt es (tg_new nTgs tgId big) = Some t) /\ instant tol (wfInt c) k (covSim t)) /\
  exists F t, (forall f, (F <= f)%nat -> groupRun f dt tr (tg_new nTgs tgId big) = Some t) /\ xEnd x - tol <= covSim t /\ (0 <= xEnd x -> covSim t <= xEnd x).
Proof.
  intros HT HC HR Hid Hdt.
  destruct (C87_end tol big x c HT HC) as (N & tr' & H1 & H2 & H3 & H4 & _).
  assert (ET : tr' = tr).
  { destruct (run_det _ _ _ _ _ _ HT HC HR) as (r & -> & _). specialize (H1 (Nat.max N fuel) ltac:(lia)).
    unfold runMain in H1, HR. rewrite HC in H1, HR. cbn [bind] in *. unfold sync_loop in H1, HR.
    set (si := if qlt (qabs _) tol then _ else _) in *. destruct (loop tol c fuel _) as [q|] eqn:E; [|discriminate].
    rewrite (loop_mono _ _ _ _ _ (Nat.max N fuel) E) in H1 by lia. cbn [bind] in *. congruence. }
  subst tr'. split.
  - intros es k a rest EQ LT.
    destruct (group_run nTgs tgId big dt Hid Hdt es (tg_new nTgs tgId big)) as (F & t & G1 & _ & G3).
    { constructor. } { intros T I. destruct (H2 T); [rewrite EQ; apply in_or_app; now left|lra]. }
    exists F, t. split; [exact G1|].
    destruct (C87_snapshots _ _ _ _ _ _ HT HC HR LT) as (S1 & _ & _).
    destruct (shots_app es (Wf k a :: rest) 0) as (u & U & SA). rewrite <- EQ in SA. cbn [shots] in SA.
    specialize (S1 (length (shots 0 es))). rewrite SA in S1.
    destruct S1 as (t' & Et & In). { rewrite app_length. cbn. lia. }
    rewrite nth_error_app2, Nat.sub_diag in Et by lia. cbn in Et. injection Et as E1 E2. subst t'. rewrite <- E1 in In.
    change (covSim (tg_new nTgs tgId big)) with 0 in G3. unfold instant in *. lra.
  - destruct (group_run nTgs tgId big dt Hid Hdt tr (tg_new nTgs tgId big)) as (F & t & G1 & _ & G3).
    { constructor. } { intros T I. destruct (H2 T I); lra. }
    change (covSim (tg_new nTgs tgId big)) with 0 in G3.
    exists F, t. split; [exact G1|]. split; [lra|]. intros P. specialize (H4 P). lra.
Qed.

(** The code violates the numbering if the interval is exactly the end time: the initial field is not written, file 0 shows the end. *)
Theorem C87_whole_interval_refuted : exists x c tr, config (1 # 1000) 1000000 x = Ok c /\ runMain (1 # 1000) 1000000 x 100 = Ok tr /\
  wfInt c == xEnd x /\ Forall2 (fun a b => fst a = fst b /\ snd a == snd b) (shots 0 tr) [(0%nat, xEnd x)].
Proof.
  exists (mkXml 2 (Some 2) (Some 1)). eexists. eexists. split; [vm_compute; reflexivity|]. split; [vm_compute; reflexivity|]. split; [reflexivity|].
  cbn. repeat constructor.
Qed.

(** a run with snapshots at 0, 2, 4, 6, an end time which is not a multiple, and synchronization points in between *)
Example run_ex : exists c tr, config (1 # 1000) 1000000 (mkXml 7 (Some 2) (Some (3 # 2))) = Ok c /\ runMain (1 # 1000) 1000000 (mkXml 7 (Some 2) (Some (3 # 2))) 100 = Ok tr /\
  map fst (shots 0 tr) = [0; 1; 2; 3]%nat /\ map (fun p => Qred (snd p)) (shots 0 tr) = [0; 2; 4; 6] /\ wfInt c < 7 /\ total tr == 7.
Proof. eexists. eexists. split; [vm_compute; reflexivity|]. split; [vm_compute; reflexivity|]. repeat split. Qed.
Example none_ex : exists c tr, config (1 # 1000) 1000000 (mkXml 7 None None) = Ok c /\ runMain (1 # 1000) 1000000 (mkXml 7 None None) 100 = Ok tr /\ length tr = 20%nat /\ 7 + (1 # 1000) <= wfInt c.
Proof. eexists. eexists. split; [vm_compute; reflexivity|]. split; [vm_compute; reflexivity|]. split; [reflexivity|]. cbn. discriminate. Qed.
Example groups_ex : (1 < 3)%nat /\ 0 < 1 # 10.
Proof. split; [lia|reflexivity]. Qed.

Print Assumptions C87_accepted.
Print Assumptions C87_end.
Print Assumptions C87_snapshots.
Print Assumptions C87_no_snapshot.
Print Assumptions C87_groups.
Print Assumptions C87_whole_interval_refuted.
