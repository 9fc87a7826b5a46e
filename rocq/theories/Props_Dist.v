(** Properties C02 (data from other ranks), C04, C06 and part of C15: local time stepping on several ranks connected by MPI,
    any interleaving of the schedulers, workers and messages of all ranks. *)
From Verif Require Import Util SchedModel SchedProofs SchedInv SchedReach DistModel DistProofs DistLive DistFair Props_Sched.

(* ------------------------------------------------------------------ *)
(** * C02, data received from other ranks *)

(** While a worker computes the neighbouring update of the send elements of group [h] in step [n], the data of every
    message this group receives -- from whichever group, rank and worker -- covers exactly the interval of step [n]. *)
Theorem C02_remote_data G s i w w' : wf G -> greach G s -> i < length (gC G) ->
  computing (rk s (cR (ch G i))) w (cH (ch G i)) 5 -> w' < gW G (cS (ch G i)) ->
  read_recv G s i w' = spec_interval (cH (ch G i)) (exe (rk s (cR (ch G i))) (cH (ch G i)) 5 w) /\
  rAct (net s i) = false.
Proof.
  intros WF R Hi C Hw.
  destruct (greach_ch G s WF R i Hi) as ((HS & _) & (HR1 & HR2) & (HM1 & HM2 & HM3 & HM4)).
  destruct (WF i Hi) as (W1 & W2 & W3 & W4 & W5).
  pose proof (greach_rank G s R (cR (ch G i))) as RR.
  destruct (C01_stage_order _ _ _ _ _ RR C) as (K1 & K2 & K3 & K4 & K5 & _).
  destruct (reach_inv _ _ RR) as ((I1 & I2 & I3 & I4 & _) & _).
  unfold read_recv. set (c := ch G i) in *. set (g := cG c) in *. set (h := cH c) in *.
  set (t := tg (rk s (cR c)) h) in *.
  destruct I4 as (_ & J2 & _). destruct (J2 _ _ _ C) as (ST & _).
  pose proof (I3 h 5 w K2 ltac:(lia) K1) as PK. rewrite ST in PK. unfold PkgOk in PK. fold t in PK.
  destruct (Nat.eqb_spec (cf t 5) 1) as [C5|]; [|destruct PK as [_ [?|?]]; discriminate].
  assert (LC : cf t 7 = 0 /\ nRe t = nTs t + 1).
  { pose proof (I1 h K2) as L. fold t in L. clear - L C5. open_loc. }
  destruct LC as [C7 NR].
  assert (P : posted t = nTs t + 1). { unfold posted. rewrite C7, NR. cbn. lia. }
  assert (RA : rAct (net s i) = false).
  { destruct (rAct (net s i)) eqn:E; auto. destruct (HR2 eq_refl) as (_ & X & _). lia. }
  rewrite K5. fold t. rewrite RA in HM2. rewrite P in HR1. set (n := nTs t) in *.
  split; [|exact RA].
  pose proof (Nat.div_mod n 2 ltac:(lia)) as DM. pose proof (Nat.mod_upper_bound n 2 ltac:(lia)) as MB.
  assert (RD : rD (net s i) = if h <? g then n / 2 + 1 else n + 1).
  { assert (rD (net s i) = rN (net s i)) as -> by lia. rewrite HR1. destruct (h <? g); auto.
    symmetry. destruct (Nat.eq_dec (n mod 2) 0); [apply (Nat.div_unique _ _ _ 0)|apply (Nat.div_unique _ _ _ 1)]; lia. }
  rewrite (HM4 ltac:(rewrite RD; destruct (h <? g); lia) RA w').
  rewrite (HM1 (rD (net s i) - 1) w' ltac:(rewrite RD in *; destruct (h <? g); lia) Hw).
  rewrite RD. unfold spec_msg, spec_interval. fold g h in W5 |- *.
  destruct W5 as [E|[E|E]].
  - rewrite E, Nat.eqb_refl, Nat.ltb_irrefl. cbn [fst]. replace (n + 1 - 1) with n by lia. reflexivity.
  - rewrite E. replace (g =? g + 1) with false by lia. replace (g <? g + 1) with true by lia. replace (g + 1 <? g) with false by lia.
    cbn [fst]. rewrite pow_S. replace (n + 1 - 1) with n by lia. f_equal. f_equal; lia.
  - rewrite E. replace (h + 1 =? h) with false by lia. replace (h + 1 <? h) with false by lia. replace (h <? h + 1) with true by lia.
    cbn [fst snd]. rewrite pow_S. replace (n / 2 + 1 - 1) with (n / 2) by lia. replace (h + 1 - 1) with h by lia.
    set (k := n / 2) in *. destruct (Nat.eqb_spec (n mod 2) 0) as [X|X]; f_equal; f_equal; nia.
Qed.

(* ------------------------------------------------------------------ *)
(** * C04 *)

(** Every fair execution reaches the synchronization point on all ranks (in the sense of C01). *)
Theorem C04_fair_termination G st la : wf G -> execution G st la -> fair G st la ->
  exists j, forall r, r < gR G -> fin (rk (st j) r) = true /\
    forall g, g < gT G -> nTs (tg (rk (st j) r) g) = spec_steps (rcfg G r) g.
Proof.
  intros WF EX FA. destruct (fair_fin G st la WF EX FA) as (j & F). exists j. intros r Hr. split; [auto|].
  intros g Hg. apply (C01_exact_updates (rcfg G r) _ (greach_rank G _ (exec_greach G st la EX j) r) (F r Hr) g Hg).
Qed.

(** No check of the status machine fails on any rank, whatever happens on the others. *)
Theorem C03_no_abort_ranks G s l : greach G s -> gstep G s l <> GFail.
Proof.
  intros R. assert (K : forall r l0, rank_step G s r l0 <> GFail).
  { intros r l0. unfold rank_step. pose proof (C03_no_abort _ _ l0 (greach_rank G s R r)). destruct (rstep _ _ _); congruence. }
  destruct l as [r|r l|i|i]; cbn [gstep].
  - destruct (r <? gR G); [apply K|discriminate].
  - destruct l; try discriminate; (destruct (r <? gR G); [apply K|discriminate]).
  - destruct (i <? _); discriminate.
  - destruct (i <? _); [destruct (testRecv _)|]; discriminate.
Qed.

(* ------------------------------------------------------------------ *)
(** * C06 *)

(** While a message is being sent, no local update of the send elements of this group is handed out or computed (they would
    write the buffer); while a receive is posted, no neighbouring update of the send elements is (they would read it). *)
Theorem C06_buffers_untouched G s i w : wf G -> greach G s -> i < length (gC G) ->
  let c := ch G i in
  (sAct (net s i) = true -> w < gW G (cS c) ->
     let st := stat (rk s (cS c)) (cG c) 1 w in st <> RDY /\ st <> IPR) /\
  (rAct (net s i) = true -> w < gW G (cR c) ->
     let st := stat (rk s (cR c)) (cH c) 5 w in st <> RDY /\ st <> IPR).
Proof.
  intros WF R Hi c. destruct (greach_ch G s WF R i Hi) as ((_ & HS) & (_ & HR) & _). fold c in HS, HR.
  destruct (WF i Hi) as (W1 & W2 & W3 & W4 & _). fold c in W1, W2, W3, W4.
  split; intros A Hw.
  - destruct (HS A) as (_ & C6 & _). destruct (greach_inv G s R (cS c)) as ((I1 & I2 & I3 & _) & _).
    pose proof (I3 (cG c) 1 w W3 ltac:(lia) Hw) as PK. unfold PkgOk in PK.
    assert (cf (tg (rk s (cS c)) (cG c)) 1 <> 1).
    { pose proof (I1 _ W3) as L. clear - L C6. open_loc; cbn in *; lia. }
    destruct (Nat.eqb_spec (cf (tg (rk s (cS c)) (cG c)) 1) 1); [contradiction|].
    destruct PK as [_ [-> | ->]]; split; discriminate.
  - destruct (HR A) as (_ & C7 & _). destruct (greach_inv G s R (cR c)) as ((I1 & I2 & I3 & _) & _).
    pose proof (I3 (cH c) 5 w W4 ltac:(lia) Hw) as PK. unfold PkgOk in PK.
    assert (cf (tg (rk s (cR c)) (cH c)) 5 <> 1).
    { pose proof (I1 _ W4) as L. clear - L C7. open_loc; cbn in *; lia. }
    destruct (Nat.eqb_spec (cf (tg (rk s (cR c)) (cH c)) 5) 1); [contradiction|].
    destruct PK as [_ [-> | ->]]; split; discriminate.
Qed.

(** The send buffer keeps its contents while it is being sent (so that the receiver gets what was in the buffer when the
    send began, whenever MPI reads it), and its contents are the data of this message. *)
Theorem C06_send_buffer_stable G s l s' i w : wf G -> greach G s -> gstep G s l = GNext s' -> i < length (gC G) ->
  let c := ch G i in
  sAct (net s i) = true -> w < gW G (cS c) ->
  sbf (rk s' (cS c)) (cG c) (cH c) w = sbf (rk s (cS c)) (cG c) (cH c) w.
Proof.
  intros WF R E Hi c A Hw.
  destruct (C06_buffers_untouched G s i w WF R Hi) as [U _]. destruct (U A Hw) as [_ NI]. fold c in NI.
  assert (RS : forall r0 l0, rank_step G s r0 l0 = GNext s' ->
     sbf (rk s' (cS c)) (cG c) (cH c) w = sbf (rk s (cS c)) (cG c) (cH c) w).
  { intros r0 l0 E0. unfold rank_step in E0. destruct (rstep (rcfg G r0) (rk s r0) l0) as [s1 ev| |] eqn:E1; try discriminate.
    injection E0 as <-. cbn [rk]. destruct (Nat.eq_dec (cS c) r0) as [Er|]; [rewrite Er, fset_eq|now rewrite fset_ne by auto].
    rewrite Er in NI. destruct l0 as [mpi|w0 g e|w0|w0]; cbn [rstep] in E1.
    - unfold sched_step in E1. destruct (fin _); [discriminate|].
      destruct (nth_error _ _) as [[g b| |]|]; try discriminate; [|injection E1 as <- _; reflexivity..].
      destruct (run_blk _ _ _ g b) eqn:EB; try discriminate. injection E1 as <- _. cbn [sbf set_pc].
      destruct (blk_fin _ _ _ _ _ _ _ EB) as (_ & _ & _ & _ & _ & ->). reflexivity.
    - unfold get_step in E1. destruct (negb _); [discriminate|]. destruct (cur _ w0); try discriminate.
      destruct (status_eqb _ _); [|discriminate]. now injection E1 as <- _.
    - unfold start_step in E1. destruct (cur _ w0); try discriminate. destruct (negb _); [discriminate|]. now injection E1 as <- _.
    - unfold done_step in E1. destruct (cur _ w0) as [|g e|g e] eqn:C; try discriminate. destruct (negb _); [discriminate|].
      injection E1 as <- _. cbn [sbf]. destruct (Nat.eqb_spec e 1) as [E2|]; [|reflexivity]. rewrite E2 in C.
      destruct (Nat.eqb_spec (cG c) g) as [Eg|]; cbn [andb]; [|reflexivity].
      destruct (Nat.eqb_spec w w0) as [<-|]; [|reflexivity]. exfalso. apply NI.
      destruct (greach_inv G s R r0) as ((_ & _ & _ & (_ & J2 & _) & _) & _). rewrite Eg. apply (J2 _ _ _ C). }
  destruct l as [r0|r0 l0|j|j]; cbn [gstep] in E.
  - destruct (r0 <? gR G); [|discriminate]. eauto.
  - destruct l0; try discriminate; (destruct (r0 <? gR G); [|discriminate]); eauto.
  - destruct (j <? _); [|discriminate]. injection E as <-. reflexivity.
  - destruct (j <? _); [|discriminate]. destruct (testRecv _); [|discriminate]. injection E as <-. reflexivity.
Qed.

(** A request is only reused (a send or receive begun) when it is not pending; a send is only begun when the local updates of
    all send elements of this step are complete. *)
Theorem C06_requests G s l s' i : wf G -> greach G s -> gstep G s l = GNext s' -> i < length (gC G) ->
  let c := ch G i in
  (sN (net s' i) <> sN (net s i) -> sAct (net s i) = false /\
     forall w, w < gW G (cS c) -> exe (rk s (cS c)) (cG c) 1 w = nTs (tg (rk s (cS c)) (cG c)) + 1) /\
  (rN (net s' i) <> rN (net s i) -> rAct (net s i) = false).
Proof.
  intros WF R E Hi c.
  destruct (greach_ch G s WF R i Hi) as ((HS0 & HS) & (HR0 & HR) & _). fold c in HS, HR, HS0, HR0.
  destruct (WF i Hi) as (W1 & W2 & W3 & W4 & _). fold c in W1, W2, W3, W4.
  assert (NE : forall r0 s1 ev, (ev = None -> net s' = net s) -> net s' = apply_ev G r0 s1 ev (net s) ->
     (sN (net s' i) <> sN (net s i) -> exists lt, ev = Some (EvSend lt (cG c)) /\ cS c = r0) /\
     (rN (net s' i) <> rN (net s i) -> exists lt, ev = Some (EvRecv lt (cH c)) /\ cR c = r0)).
  { intros r0 s1 ev _ EN. rewrite EN. unfold apply_ev. fold c.
    destruct ev as [[lt g|lt g]|]; [| |split; congruence].
    - fold c. destruct (matchS c r0 lt g) eqn:MM; [|split; congruence].
      unfold matchS in MM. apply andb_prop in MM as [M0 MM]. apply andb_prop in MM as [M1 _]. apply Nat.eqb_eq in M0, M1.
      cbn [sN rN beginSend]. split; [|congruence]. intros _. exists lt. split; congruence.
    - fold c. destruct (matchR c r0 lt g) eqn:MM; [|split; congruence].
      unfold matchR in MM. apply andb_prop in MM as [M0 MM]. apply andb_prop in MM as [M1 _]. apply Nat.eqb_eq in M0, M1.
      cbn [sN rN beginRecv]. split; [congruence|]. intros _. exists lt. split; congruence. }
  assert (RS : forall r0 l0, rank_step G s r0 l0 = GNext s' ->
    (sN (net s' i) <> sN (net s i) -> sAct (net s i) = false /\
     forall w, w < gW G (cS c) -> exe (rk s (cS c)) (cG c) 1 w = nTs (tg (rk s (cS c)) (cG c)) + 1) /\
    (rN (net s' i) <> rN (net s i) -> rAct (net s i) = false)).
  { intros r0 l0 E0. unfold rank_step in E0. destruct (rstep (rcfg G r0) (rk s r0) l0) as [s1 ev| |] eqn:E1; try discriminate.
    injection E0 as E0. assert (EN : net s' = apply_ev G r0 (rk s r0) ev (net s)) by (rewrite <- E0; reflexivity).
    destruct (NE r0 (rk s r0) ev ltac:(intros ->; exact EN) EN) as [NS NR].
    destruct (greach_inv G s R r0) as [HI HF].
    assert (BL : ev <> None -> exists mpi g b s2, run_blk (rcfg G r0) mpi (rk s r0) g b = Next s2 ev /\ g < gT G).
    { intros NN. destruct l0 as [mpi|w0 g e|w0|w0].
      - cbn [rstep] in E1. destruct (sched_pc _ _ _ _ _ HI HF E1) as [(g & b & s2 & Epc & EB & _)|X].
        + exists mpi, g, b, s2. split; auto. apply (nth_prog_group _ _ _ _ Epc).
        + exfalso. unfold sched_step in E1. destruct (fin _); [discriminate|].
          rewrite nth_prog in E1. destruct X as [(P0 & _)|(P0 & _)]; rewrite P0 in E1.
          * rewrite Nat.ltb_irrefl, Nat.eqb_refl in E1. congruence.
          * change (nT (rcfg G r0)) with (gT G) in E1.
            replace (19 * gT G + 1 <? 9 * gT G) with false in E1 by lia.
            replace (19 * gT G + 1 =? 9 * gT G) with false in E1 by lia. rewrite Nat.ltb_irrefl, Nat.eqb_refl in E1. congruence.
      - exfalso. apply NN. apply (work_frame _ _ _ _ _ E1). discriminate.
      - exfalso. apply NN. apply (work_frame _ _ _ _ _ E1). discriminate.
      - exfalso. apply NN. apply (work_frame _ _ _ _ _ E1). discriminate. }
    split; intros X.
    - destruct (NS X) as (lt & -> & Er). destruct (BL ltac:(discriminate)) as (mpi & g & b & s2 & EB & Hg).
      pose proof (blk_ev_group _ _ _ _ _ _ _ EB) as Eg. cbn in Eg.
      destruct (blk_send _ _ _ _ _ _ _ HI Hg EB) as [(_ & C6 & _ & _ & C1)|(NO & _)]; [|exfalso; eapply NO; eauto].
      rewrite <- Eg, <- Er in *. split.
      + destruct (sAct (net s i)); auto. destruct (HS eq_refl) as (_ & C6' & _). lia.
      + intros w Hw. destruct HI as (I1 & I2 & I3 & _). pose proof (I3 (cG c) 1 w W3 ltac:(lia) Hw) as PK. unfold PkgOk in PK.
        rewrite C1 in PK. cbn [Nat.eqb cnt] in PK. destruct PK as [-> _].
        pose proof (I1 (cG c) W3) as L. clear - L C1. open_loc; cbn in *; lia.
    - destruct (NR X) as (lt & -> & Er). destruct (BL ltac:(discriminate)) as (mpi & g & b & s2 & EB & Hg).
      pose proof (blk_ev_group _ _ _ _ _ _ _ EB) as Eg. cbn in Eg.
      destruct (blk_recv _ _ _ _ _ _ _ HI Hg EB) as [(_ & C7 & _)|(NO & _)]; [|exfalso; eapply NO; eauto].
      rewrite <- Eg, <- Er in *. destruct (rAct (net s i)); auto. destruct (HR eq_refl) as (_ & C7' & _). lia. }
  destruct l as [r0|r0 l0|j|j]; cbn [gstep] in E.
  - destruct (r0 <? gR G); [|discriminate]. eauto.
  - destruct l0; try discriminate; (destruct (r0 <? gR G); [|discriminate]); eauto.
  - destruct (j <? _); [|discriminate]. injection E as <-. cbn [net]. destruct (Nat.eq_dec i j) as [<-|]; [rewrite fset_eq|rewrite fset_ne by auto];
      split; cbn; congruence.
  - destruct (j <? _); [|discriminate]. destruct (testRecv _) as [n|] eqn:T; [|discriminate]. injection E as <-. cbn [net].
    destruct (Nat.eq_dec i j) as [<-|]; [rewrite fset_eq|rewrite fset_ne by auto; split; congruence].
    unfold testRecv in T. destruct (rAct (net s i)); [destruct (_ <? _); [|discriminate]|]; injection T as <-; split; cbn; congruence.
Qed.

(* ------------------------------------------------------------------ *)
(** * C15, number of messages *)

(** When sender and receiver of a channel have reached the synchronization point, they have exchanged the same number of
    messages: one per step of the larger group; nothing is pending. *)
Theorem C15_message_counts G s i : wf G -> greach G s -> i < length (gC G) ->
  let c := ch G i in
  fin (rk s (cS c)) = true -> fin (rk s (cR c)) = true ->
  let n := spec_steps (rcfg G 0) (Nat.max (cG c) (cH c)) in
  sN (net s i) = n /\ rN (net s i) = n /\ rD (net s i) = n /\ sAct (net s i) = false /\ rAct (net s i) = false.
Proof.
  intros WF R Hi c FS FR n.
  destruct (greach_ch G s WF R i Hi) as ((HS0 & HS) & (HR0 & HR) & (_ & HM & _)). fold c in HS, HR, HS0, HR0.
  destruct (WF i Hi) as (W1 & W2 & W3 & W4 & W5). fold c in W1, W2, W3, W4, W5.
  destruct (greach_inv G s R (cS c)) as ((I1 & _) & (_ & F1 & _)).
  destruct (greach_inv G s R (cR c)) as ((I1' & _) & (_ & F1' & _)).
  destruct (done_facts _ _ (I1 _ W3) (F1 FS _ W3)) as (_ & _ & _ & _ & _ & _ & C6 & _ & _ & N6 & _).
  destruct (done_facts _ _ (I1' _ W4) (F1' FR _ W4)) as (_ & _ & _ & _ & _ & _ & _ & C7 & _ & _ & N7 & _).
  assert (SA : sAct (net s i) = false). { destruct (sAct (net s i)); auto. destruct (HS eq_refl) as (_ & X & _). lia. }
  assert (RA : rAct (net s i) = false). { destruct (rAct (net s i)); auto. destruct (HR eq_refl) as (_ & X & _). lia. }
  rewrite RA in HM. rewrite <- (Nat.add_0_r (rD (net s i))), <- HM.
  unfold begun in HS0. unfold posted in HR0. rewrite C6, N6 in HS0. rewrite C7, N7 in HR0. cbn [is1 Nat.eqb] in HS0, HR0.
  rewrite Nat.add_0_r in HS0, HR0.
  assert (NN : n = nReq (rcfg G (cS c)) (Nat.max (cG c) (cH c))) by apply (spec_steps_nReq (rcfg G (cS c))).
  change (nReq (rcfg G (cR c)) (cH c)) with (nReq (rcfg G (cS c)) (cH c)) in HR0.
  rewrite NN. set (N := nReq (rcfg G (cS c))) in *.
  assert (X : sN (net s i) = N (Nat.max (cG c) (cH c)) /\ rN (net s i) = N (Nat.max (cG c) (cH c))); [|tauto].
  destruct W5 as [E|[E|E]].
  - rewrite E in *. rewrite Nat.ltb_irrefl in *. rewrite Nat.max_id. auto.
  - rewrite HS0, HR0. rewrite E. replace (cG c <? cG c + 1) with true by lia. replace (cG c + 1 <? cG c) with false by lia.
    rewrite Nat.max_r by lia. split; auto. unfold N. rewrite (nReq_half (rcfg G (cS c)) (cG c)) by (cbn [nT rcfg]; lia).
    symmetry. apply (Nat.div_unique _ _ _ 0); lia.
  - rewrite HS0, HR0. rewrite E. replace (cH c + 1 <? cH c) with false by lia. replace (cH c <? cH c + 1) with true by lia.
    rewrite Nat.max_l by lia. split; auto. unfold N. rewrite (nReq_half (rcfg G (cS c)) (cH c)) by (cbn [nT rcfg]; lia).
    symmetry. apply (Nat.div_unique _ _ _ 1); lia.
Qed.

(* ------------------------------------------------------------------ *)
(** * Concrete executions *)

(** two ranks with one and two workers, two time groups; groups 0 of both ranks are adjacent, as are group 0 of rank 0 and
    group 1 of rank 1 *)
Definition ex_G : gcfg :=
  mkG 2 2 (fun r => S r) 1 [mkChan 0 0 1 0; mkChan 1 0 0 0; mkChan 0 0 1 1; mkChan 1 1 0 0].

Lemma ex_wf : wf ex_G.
Proof. intros i Hi. cbn in Hi. do 4 (destruct i as [|i]; [cbn; lia|]). lia. Qed.

(** round robin over all schedulers, workers and requests *)
Definition ex_turn (s : gst) (p : nat) : option glabel :=
  let wk r w := option_map (GWork r) (worker_label (rcfg ex_G r) (rk s r) w) in
  match p with
  | 0 => Some (GSched 0) | 1 => wk 0 0 | 2 => Some (GSched 1) | 3 => wk 1 0 | 4 => wk 1 1
  | S (S (S (S (S p)))) => if p <? 4 then Some (GTestS p) else Some (GTestR (p - 4))
  end.

Definition ex_label (sp : gst * nat) : option glabel :=
  match ex_turn (fst sp) (snd sp) with
  | None => None
  | Some l => match gstep ex_G (fst sp) l with GNext _ => Some l | _ => None end
  end.

Definition ex_next (sp : gst * nat) : gst * nat :=
  (match ex_turn (fst sp) (snd sp) with
   | None => fst sp
   | Some l => match gstep ex_G (fst sp) l with GNext s' => s' | _ => fst sp end
   end, if snd sp =? 12 then 0 else S (snd sp)).

Fixpoint ex_run (n : nat) (sp : gst * nat) : gst * nat :=
  match n with 0 => sp | S n => ex_run n (ex_next sp) end.

Definition ex_ginit : gst :=
  ginit (fun _ _ _ _ => mkBufs None None None) (fun _ _ _ _ => (None, None)) (fun _ => true) (fun _ => true) (fun _ _ => (None, None)).

Definition ex_st (i : nat) : gst := fst (ex_run i (ex_ginit, 0)).
Definition ex_la (i : nat) : option glabel := ex_label (ex_run i (ex_ginit, 0)).

Lemma ex_run_S n sp : ex_run (S n) sp = ex_next (ex_run n sp).
Proof. revert sp. induction n as [|n IH]; intros sp; [reflexivity|]. cbn [ex_run]. rewrite <- IH. reflexivity. Qed.

Lemma ex_execution : execution ex_G ex_st ex_la.
Proof.
  split; [repeat eexists; reflexivity|]. intros i. unfold ex_la, ex_st. rewrite ex_run_S.
  destruct (ex_run i (ex_ginit, 0)) as [s p]. unfold ex_label, ex_next. cbn [fst snd].
  destruct (ex_turn s p) as [l|]; [|reflexivity]. destruct (gstep ex_G s l) eqn:E; auto.
Qed.

Definition ex_idle (s : gst) (r : nat) : bool :=
  forallb (fun w => match worker_label (rcfg ex_G r) (rk s r) w with None => true | _ => false end) (seq 0 (gW ex_G r)).
Definition ex_over (s : gst) : bool :=
  fin (rk s 0) && fin (rk s 1) && ex_idle s 0 && ex_idle s 1 &&
  forallb (fun i => negb (sAct (net s i)) && negb (rAct (net s i))) (seq 0 4).

Lemma find_none_in {A} (f : A -> bool) l : find f l = None -> forall x, In x l -> f x = false.
Proof. intros H x Hx. eapply find_none; eauto. Qed.

Lemma ex_idle_ok s r : ex_idle s r = true -> forall w, w < gW ex_G r -> no_work ex_G s r w.
Proof.
  intros H w Hw. unfold ex_idle in H. rewrite forallb_forall in H. specialize (H w ltac:(apply in_seq; lia)).
  unfold worker_label in H. unfold no_work. destruct (cur (rk s r) w); try discriminate.
  destruct (find_rdy _ _ w) as [[]|] eqn:F; [discriminate|]. split; [reflexivity|]. intros g e Hg He X.
  unfold find_rdy in F. pose proof (find_none_in _ _ F (g, e)) as K. cbn [fst snd] in K. rewrite X in K.
  assert (true = false); [|discriminate]. apply K. apply in_flat_map. exists g. split; [apply in_seq; cbn [nT rcfg]; lia|].
  apply in_map. apply in_seq. lia.
Qed.

Fixpoint ex_find (P : gst -> bool) (n : nat) (sp : gst * nat) : bool :=
  P (fst sp) || match n with 0 => false | S n => ex_find P n (ex_next sp) end.

Lemma ex_find_ok P n sp : ex_find P n sp = true -> exists i, P (fst (ex_run i sp)) = true.
Proof.
  revert sp. induction n as [|n IH]; cbn [ex_find]; intros sp E; apply orb_prop in E as [E|E].
  - now exists 0. - discriminate. - now exists 0.
  - destruct (IH _ E) as (i & H). now exists (S i).
Qed.

Lemma ex_over_next s p : ex_over s = true -> ex_over (fst (ex_next (s, p))) = true.
Proof.
  intros H. unfold ex_next. cbn [fst snd]. pose proof H as H0. unfold ex_over in H.
  apply andb_prop in H as [H H4]. apply andb_prop in H as [H H3]. apply andb_prop in H as [H H2]. apply andb_prop in H as [H H1].
  assert (SC : forall r, fin (rk s r) = true -> forall x, gstep ex_G s (GSched r) <> GNext x).
  { intros r F x. cbn [gstep]. destruct (r <? _); [|discriminate]. unfold rank_step. cbn [rstep]. unfold sched_step. rewrite F. discriminate. }
  assert (WK : forall r w, ex_idle s r = true -> w < gW ex_G r -> worker_label (rcfg ex_G r) (rk s r) w = None).
  { intros r w X Hw. unfold ex_idle in X. rewrite forallb_forall in X. specialize (X w ltac:(apply in_seq; lia)).
    destruct (worker_label _ _ w); [discriminate|reflexivity]. }
  assert (TS : forall i x, gstep ex_G s (GTestS i) = GNext x \/ gstep ex_G s (GTestR i) = GNext x -> ex_over x = true).
  { intros i x E. rewrite forallb_forall in H4.
    assert (K : rk x = rk s /\ forall j, j < 4 -> sAct (net x j) = false /\ rAct (net x j) = false).
    { assert (N : forall j, j < 4 -> sAct (net s j) = false /\ rAct (net s j) = false).
      { intros j Hj. specialize (H4 j ltac:(apply in_seq; lia)). apply andb_prop in H4 as [A B].
        apply negb_true_iff in A, B. auto. }
      destruct E as [E|E]; cbn [gstep] in E; (destruct (i <? _) eqn:L; [|discriminate]); apply Nat.ltb_lt in L;
        change (length (gC ex_G)) with 4 in L.
      - assert (x = mkGst (rk s) (fset (net s) i (testSend (net s i)))) as -> by congruence. split; [reflexivity|].
        intros j Hj. cbn [net]. destruct (Nat.eq_dec j i) as [->|]; [rewrite fset_eq|rewrite fset_ne by auto; auto].
        cbn. destruct (N i L). auto.
      - unfold testRecv in E. destruct (N i L) as [N1 N2]. rewrite N2 in E.
        match type of E with GNext ?y = _ => assert (x = y) as -> by congruence end. split; [reflexivity|].
        intros j Hj. cbn [net]. destruct (Nat.eq_dec j i) as [->|]; [rewrite fset_eq|rewrite fset_ne by auto; auto].
        cbn. auto. }
    destruct K as [K1 K2]. unfold ex_over, ex_idle. rewrite K1. unfold ex_idle in H3, H2. rewrite H, H1, H2, H3. cbn [andb].
    apply forallb_forall. intros j Hj. apply in_seq in Hj. destruct (K2 j ltac:(lia)) as [-> ->]. reflexivity. }
  destruct (ex_turn s p) as [l|] eqn:T; [|exact H0].
  destruct (gstep ex_G s l) as [x| |] eqn:E; auto.
  unfold ex_turn in T. rewrite (WK 0 0 H2 ltac:(cbn; lia)), (WK 1 0 H3 ltac:(cbn; lia)), (WK 1 1 H3 ltac:(cbn; lia)) in T.
  do 5 (destruct p as [|p]; [try discriminate T; assert (l = GSched 0 \/ l = GSched 1) as [-> | ->] by (injection T; auto);
    exfalso; (exact (SC _ H x E) || exact (SC _ H1 x E))|]).
  destruct (p <? 4).
  - assert (l = GTestS p) as -> by congruence. eapply TS; eauto.
  - assert (l = GTestR (p - 4)) as -> by congruence. eapply TS; eauto.
Qed.

Lemma ex_fair : fair ex_G ex_st ex_la.
Proof.
  destruct (ex_find_ok ex_over (20 * 600) (ex_ginit, 0)) as (k & K); [vm_compute; reflexivity|].
  assert (O : forall j, ex_over (ex_st (k + j)) = true).
  { induction j as [|j IH]; [rewrite Nat.add_0_r; exact K|]. replace (k + S j) with (S (k + j)) by lia.
    unfold ex_st in *. rewrite ex_run_S. destruct (ex_run (k + j) (ex_ginit, 0)) as [s p]. apply ex_over_next. exact IH. }
  assert (O' : forall i, exists j, i <= j /\ ex_over (ex_st j) = true).
  { intros i. exists (k + i). split; [lia|apply O]. }
  constructor.
  - intros r i Hr. destruct (O' i) as (j & Hj & X). exists j. split; [exact Hj|]. right. unfold ex_over in X.
    apply andb_prop in X as [X X4]. apply andb_prop in X as [X X3]. apply andb_prop in X as [X X2]. apply andb_prop in X as [X X1].
    cbn in Hr. destruct r as [|[|r]]; auto; lia.
  - intros r w i Hr Hw. destruct (O' i) as (j & Hj & X). exists j. split; [exact Hj|]. right. unfold ex_over in X.
    apply andb_prop in X as [X X4]. apply andb_prop in X as [X X3]. apply andb_prop in X as [X X2].
    apply ex_idle_ok; [|exact Hw]. cbn in Hr. destruct r as [|[|r]]; auto; lia.
  - intros c i Hc. destruct (O' i) as (j & Hj & X). exists j. split; [exact Hj|]. right. unfold ex_over in X.
    apply andb_prop in X as [X X4]. rewrite forallb_forall in X4. specialize (X4 c ltac:(apply in_seq; cbn in Hc; lia)).
    apply andb_prop in X4 as [A B]. apply negb_true_iff in A, B. rewrite A. intuition discriminate.
  - intros c i Hc. destruct (O' i) as (j & Hj & X). exists j. split; [exact Hj|]. right. unfold ex_over in X.
    apply andb_prop in X as [X X4]. rewrite forallb_forall in X4. specialize (X4 c ltac:(apply in_seq; cbn in Hc; lia)).
    apply andb_prop in X4 as [A B]. apply negb_true_iff in A, B. rewrite B. intuition discriminate.
Qed.

(** a fair execution exists, to which C04 applies *)
Example C04_ex : exists G st la, wf G /\ execution G st la /\ fair G st la.
Proof. exists ex_G, ex_st, ex_la. split; [exact ex_wf|]. split; [exact ex_execution|exact ex_fair]. Qed.

Lemma ex_reach P n : ex_find P n (ex_ginit, 0) = true -> exists s, greach ex_G s /\ P s = true.
Proof.
  intros H. destruct (ex_find_ok _ _ _ H) as (i & E). exists (ex_st i). split; [|exact E].
  exact (exec_greach _ _ _ ex_execution i).
Qed.

(** rank 0 computes the second neighbouring update of its send elements, reading data of group 1 of rank 1 *)
Example C02_remote_ex : exists s, greach ex_G s /\ computing (rk s 0) 0 (cH (ch ex_G 3)) 5 /\
  exe (rk s 0) 0 5 0 = 1 /\ read_recv ex_G s 3 1 = Some (1, 2).
Proof.
  destruct (ex_reach (fun s => match cur (rk s 0) 0 with Busy g e => (g =? 0) && (e =? 5) | _ => false end && (exe (rk s 0) 0 5 0 =? 1))
    (20 * 600)) as (s & R & H); [vm_compute; reflexivity|].
  exists s. apply andb_prop in H as [H H2]. apply Nat.eqb_eq in H2.
  assert (C : computing (rk s 0) 0 (cH (ch ex_G 3)) 5).
  { unfold computing. destruct (cur (rk s 0) 0); try discriminate. apply andb_prop in H as [H H1].
    apply Nat.eqb_eq in H, H1. subst. reflexivity. }
  repeat (split; [assumption|]).
  destruct (C02_remote_data ex_G s 3 0 1 ex_wf R ltac:(cbn; lia) C ltac:(cbn; lia)) as [E _]. rewrite E.
  change (cH (ch ex_G 3)) with 0. change (cR (ch ex_G 3)) with 0. rewrite H2. reflexivity.
Qed.

(** a send and a receive in flight *)
Example C06_ex : exists s, greach ex_G s /\ sAct (net s 0) = true /\ rAct (net s 3) = true.
Proof.
  destruct (ex_reach (fun s => sAct (net s 0) && rAct (net s 3)) (20 * 600)) as (s & R & H); [vm_compute; reflexivity|].
  exists s. apply andb_prop in H as [H H2]. auto.
Qed.

Example C15_counts_ex : exists s, greach ex_G s /\ fin (rk s 0) = true /\ fin (rk s 1) = true /\ sN (net s 0) = 4 /\ sN (net s 2) = 2.
Proof.
  destruct (ex_reach (fun s => fin (rk s 0) && fin (rk s 1)) (20 * 600)) as (s & R & H); [vm_compute; reflexivity|].
  exists s. apply andb_prop in H as [H H2]. repeat (split; [assumption|]).
  destruct (C15_message_counts ex_G s 0 ex_wf R ltac:(cbn; lia) H H2) as (E & _).
  destruct (C15_message_counts ex_G s 2 ex_wf R ltac:(cbn; lia) H H2) as (E2 & _). rewrite E, E2. split; reflexivity.
Qed.

Print Assumptions C02_remote_data.
Print Assumptions C03_no_abort_ranks.
Print Assumptions C04_fair_termination.
Print Assumptions C06_buffers_untouched.
Print Assumptions C06_send_buffer_stable.
Print Assumptions C06_requests.
Print Assumptions C15_message_counts.
