(** Property C07: local time stepping of the advection solver on one rank, any interleaving of scheduler and workers,
    any answers of MPI. Specification ([spec_steps], [spec_interval], [adjacent], [computing]) as for C01 - C03. *)
From Verif Require Import Util SchedModel SchedProofs SchedInv SchedReach SchedAdv SchedAdvProofs Props_Sched.

Lemma acomputing c s w g e : AInv c s -> computing s w g e ->
  w < nW c /\ g < nT c /\ e < 4 /\ cf (tg s g) e = 1 /\ exe s g e w = acnt (tg s g) e.
Proof.
  intros (I1 & I2 & I3 & I4 & I5) C. destruct I4 as (J1 & J2 & J3). destruct (J2 _ _ _ C) as (K1 & K2 & K3 & K4).
  pose proof (I3 g e w K3 K4 K2) as PK. rewrite K1 in PK. unfold APkg in PK.
  destruct ((e <? 4) && (cf (tg s g) e =? 1)) eqn:B; [|destruct PK as [_ [?|?]]; discriminate].
  apply andb_prop in B as [B1 B2]. apply Nat.ltb_lt in B1. apply Nat.eqb_eq in B2. auto.
Qed.

(** When the scheduler declares the synchronization point reached, every work package (local and neighbouring; inner and
    send; all workers) has been executed exactly the required number of times, and none is ready or in progress. *)
Theorem C07_exact_updates c s : areach c s -> fin s = true ->
  forall g, g < nT c ->
    nTs (tg s g) = spec_steps c g /\
    forall e w, e < 4 -> w < nW c ->
      exe s g e w = spec_steps c g /\ stat s g e w <> RDY /\ stat s g e w <> IPR.
Proof.
  intros R Hf g Hg. destruct (areach_inv c s R) as (HI & HF1 & HF2 & HF3).
  pose proof (adone_AF _ _ _ HI Hg (HF2 Hf g Hg)) as (A1 & A2 & A3 & A4 & A5 & A6).
  rewrite spec_steps_nReq. split; [exact A1|]. intros e w He Hw.
  destruct HI as (I1 & I2 & I3 & _). specialize (I3 g e w Hg ltac:(lia) Hw). unfold APkg in I3.
  rewrite (A6 e) in I3 by lia. rewrite andb_false_r in I3. destruct I3 as [-> I3].
  split; [|destruct I3 as [-> | ->]; split; discriminate].
  do 4 (destruct e as [|e]; [assumption|]). lia.
Qed.

(** A package is executed once per step of its group; the neighbouring update (2, 3) of a step starts when all workers have
    completed the local update (0, 1) of this step, and the local update of a step when all workers have completed the
    neighbouring update of the step before. *)
Theorem C07_stage_order c s w g e : areach c s -> computing s w g e ->
  w < nW c /\ g < nT c /\ e < 4 /\ nTs (tg s g) < spec_steps c g /\ exe s g e w = nTs (tg s g) /\
  forall e' w', e' < 4 -> w' < nW c ->
    (e' < 2 -> 2 <= e -> exe s g e' w' = nTs (tg s g) + 1) /\
    (e < 2 -> 2 <= e' -> exe s g e' w' = nTs (tg s g)).
Proof.
  intros R C. destruct (areach_inv c s R) as (HI & _).
  destruct (acomputing _ _ _ _ _ HI C) as (Hw & Hg & He & CE & EX). rewrite EX, spec_steps_nReq.
  destruct HI as (I1 & I2 & I3 & _). pose proof (I1 g Hg) as L.
  repeat (split; [assumption|]).
  split; [|split].
  - clear - L CE He. do 4 (destruct e as [|e]; [openA; lia|]). lia.
  - clear - L CE He. do 4 (destruct e as [|e]; [cbn [acnt]; openA; lia|]). lia.
  - intros e' w' He' Hw'. specialize (I3 g e' w' Hg ltac:(lia) Hw'). unfold APkg in I3.
    replace (e' <? 4) with true in I3 by lia. cbn [andb] in I3. split; intros H1 H2.
    + assert (cf (tg s g) e' = 4 /\ acnt (tg s g) e' = nTs (tg s g) + 1) as [A1 A2].
      { clear - L CE He H1 H2. destruct e' as [|[|e']]; [| |lia]; do 2 (destruct e as [|e]; [lia|]);
        (destruct e as [|[|e]]; [| |lia]); cbn [acnt]; openA; lia. }
      rewrite A1 in I3. cbn in I3. destruct I3 as [-> _]. exact A2.
    + assert (cf (tg s g) e' = 0 /\ acnt (tg s g) e' = nTs (tg s g)) as [A1 A2].
      { clear - L CE He He' H1 H2. destruct e as [|[|e]]; [| |lia]; do 2 (destruct e' as [|e']; [lia|]);
        (destruct e' as [|[|e']]; [| |lia]); cbn [acnt]; openA; lia. }
      rewrite A1 in I3. cbn in I3. destruct I3 as [-> _]. exact A2.
Qed.

Lemma awindow c s w g e : areach c s -> computing s w g e -> 2 <= e ->
  forall h, h < nT c -> adjacent g h ->
  let n := nTs (tg s g) in
  let x := if h =? g then n + 1 else if h <? g then 2 * (n + 1) else n / 2 + 1 in
  cf (tg s h) 0 <> 1 /\ cf (tg s h) 1 <> 1 /\ tpI (tg s h) = x /\ tpS (tg s h) = x.
Proof.
  intros R C He h Hh A n x. destruct (areach_inv c s R) as (HI & _).
  destruct (acomputing _ _ _ _ _ HI C) as (Hw & Hg & He4 & CE & EX).
  destruct HI as (I1 & I2 & I3 & _). pose proof (I1 g Hg) as L. pose proof (I1 h Hh) as Lh.
  assert (LB : cf (tg s g) 0 = 4 /\ cf (tg s g) 1 = 4 /\ tpI (tg s g) = n + 1 /\ tpS (tg s g) = n + 1 /\
               (duI (tg s g) = n \/ duS (tg s g) = n)).
  { clear - L CE He He4. subst n. do 2 (destruct e as [|e]; [lia|]). destruct e as [|[|e]]; [| |lia]; openA; lia. }
  destruct LB as (B0 & B1 & T1 & T2 & DU).
  assert (RNG : forall t N, ALoc N t -> nTs t <= tpI t <= nTs t + 1 /\ nTs t <= tpS t <= nTs t + 1 /\
     nTs t <= duI t <= tpI t /\ nTs t <= duS t <= tpS t /\
     (tpI t = nTs t + 1 -> cf t 0 <> 1) /\ (tpS t = nTs t + 1 -> cf t 1 <> 1)).
  { clear. intros t N L. openA; lia. }
  pose proof (RNG _ _ Lh) as (R1 & R2 & R3 & R4 & R5 & R6). pose proof (RNG _ _ L) as (S1 & S2 & S3 & S4 & _).
  subst x. destruct (Nat.eqb_spec h g) as [->|Ne]; [lia|].
  destruct (Nat.ltb_spec h g) as [Lt|Ge].
  - assert (h = g - 1) as -> by (unfold adjacent in A; lia).
    pose proof (I2 (g - 1) ltac:(lia)) as P. replace (g - 1 + 1) with g in P by lia.
    destruct P as ((P1 & P1') & (P2 & P2') & P3 & P4). specialize (P4 B0). fold n in P4, P1, P1' |- *. lia.
  - assert (h = g + 1) as -> by (unfold adjacent in A; lia).
    pose proof (I2 g Hh) as ((P1 & P1') & (P2 & P2') & P3 & P4). specialize (P3 B0).
    fold n in P2, P2', P3, P1, P1' |- *. set (b := nTs (tg s (g + 1))) in *.
    assert (n = 2 * b \/ n = 2 * b + 1) as EB by lia.
    assert (n / 2 = b) as ->.
    { symmetry. destruct EB; [apply (Nat.div_unique _ _ _ 0)|apply (Nat.div_unique _ _ _ 1)]; lia. }
    lia.
Qed.

(** Whenever a worker computes the neighbouring update of step [n] of group [g], the data it reads for a face of whatever
    element on this rank (same or adjacent group, inner or send, computed by whichever worker) is the integral over exactly
    the interval of this step, and nobody is (or may start) overwriting it. *)
Theorem C07_neighbour_data c s w g e : areach c s -> computing s w g e -> 2 <= e ->
  forall h e' w', h < nT c -> adjacent g h -> e' < 2 -> w' < nW c ->
    read_face s g h e' w' = spec_interval g (exe s g e w) /\
    stat s h e' w' <> RDY /\ stat s h e' w' <> IPR /\ ~ computing s w' h e'.
Proof.
  intros R C He h e' w' Hh A He' Hw'.
  pose proof (awindow c s w g e R C He h Hh A) as (N0 & N1 & N2 & N3).
  destruct (C07_stage_order c s w g e R C) as (W1 & W2 & W3 & W4 & W5 & _).
  destruct (areach_inv c s R) as ((I1 & I2 & I3 & I4 & I5) & _).
  pose proof (I3 h e' w' Hh ltac:(lia) Hw') as PK. unfold APkg in PK.
  assert (NE : (cf (tg s h) e' =? 1) = false) by (destruct e' as [|[|e']]; lia).
  rewrite NE, andb_false_r in PK. destruct PK as [PX PS].
  set (n := nTs (tg s g)) in *. rewrite W5.
  assert (X : exe s h e' w' = if h =? g then n + 1 else if h <? g then 2 * (n + 1) else n / 2 + 1).
  { rewrite PX. destruct e' as [|[|e']]; [exact N2|exact N3|lia]. }
  split.
  - pose proof (I5 h e' w' Hh He' Hw') as B. rewrite X in B. unfold read_face, spec_interval.
    pose proof (Nat.div_mod n 2 ltac:(lia)) as DM. pose proof (Nat.mod_upper_bound n 2 ltac:(lia)) as MB.
    destruct (Nat.eqb_spec h g) as [->|Ne].
    + replace (n + 1) with (S n) in B by lia. destruct B as (-> & _). reflexivity.
    + destruct (Nat.ltb_spec h g) as [Lt|Ge].
      * assert (g = S h) as -> by (unfold adjacent in A; lia).
        replace (2 * (n + 1)) with (S (2 * n + 1)) in B by lia. destruct B as (_ & -> & _).
        assert ((2 * n + 1) / 2 = n) as ->. { symmetry. apply (Nat.div_unique _ _ _ 1); lia. }
        replace (2 ^ S h) with (2 * 2 ^ h) by reflexivity.
        f_equal. f_equal; lia.
      * assert (h = S g) as -> by (unfold adjacent in A; lia).
        replace (n / 2 + 1) with (S (n / 2)) in B by lia. destruct B as (B0 & _ & B2).
        rewrite B0, B2. fold n. replace (2 ^ S g) with (2 * 2 ^ g) by reflexivity.
        replace (S g - 1) with g by lia. unfold iv. replace (2 ^ S g) with (2 * 2 ^ g) by reflexivity.
        destruct (Nat.eqb_spec (n mod 2) 0) as [E|E].
        -- f_equal. rewrite E in DM. rewrite DM at 3 4. f_equal; lia.
        -- assert (n mod 2 = 1) as E' by lia. rewrite E' in DM. unfold tag_sub. rewrite Nat.eqb_refl. cbn [andb].
           replace (n / 2 * (2 * 2 ^ g) + 2 ^ g <=? (n / 2 + 1) * (2 * 2 ^ g)) with true
             by (symmetry; apply Nat.leb_le; nia).
           f_equal. rewrite DM at 3 4. f_equal; lia.
  - assert (S1 : stat s h e' w' <> RDY) by (destruct PS as [-> | ->]; discriminate).
    assert (S2 : stat s h e' w' <> IPR) by (destruct PS as [-> | ->]; discriminate).
    repeat apply conj; auto. intros K. destruct I4 as (_ & J2 & _). destruct (J2 _ _ _ K). contradiction.
Qed.

(** No check of the status machine ever fails, and no thread with something to do is stuck before the end of the interval. *)
Theorem C07_no_abort c s l : areach c s -> astep c s l <> AFail.
Proof.
  intros R. destruct (areach_inv c s R) as [HI HF].
  pose proof (astep_inv c s l HI HF) as H. destruct (astep c s l); [discriminate|discriminate|contradiction].
Qed.

Theorem C07_never_stuck c s : areach c s ->
  (fin s = false -> forall mpi, exists s' ev, astep c s (LSched mpi) = ANext s' ev) /\
  (forall w g e, cur s w = Got g e -> exists s' ev, astep c s (LStart w) = ANext s' ev) /\
  (forall w g e, cur s w = Busy g e -> exists s' ev, astep c s (LDone w) = ANext s' ev).
Proof.
  intros R. destruct (areach_inv c s R) as [HI HF]. repeat apply conj.
  - intros Hf mpi. pose proof (asched_inv c mpi s HI HF) as H. cbn [astep].
    destruct (asched_step c mpi s) as [s' ev| |]; eauto; [congruence|contradiction].
  - intros w g e C. pose proof (astart_inv c w s HI) as H. cbn [astep]. unfold start_step in *. rewrite C in *.
    destruct (negb _); [contradiction|]. cbn [lift]. eauto.
  - intros w g e C. pose proof (adone_inv c w s HI) as H. cbn [astep]. unfold done_step in *. rewrite C in *.
    destruct (negb _); [contradiction|]. cbn [lift]. eauto.
Qed.

(** While a package of a group is handed out or computed, the group's time step data does not change. *)
Theorem C07_stable_time_step c s l s' ev g e w :
  areach c s -> astep c s l = ANext s' ev -> g < nT c -> e < 4 -> w < nW c ->
  stat s g e w = RDY \/ stat s g e w = IPR ->
  nTs (tg s' g) = nTs (tg s g).
Proof.
  intros R E Hg He Hw S. destruct (areach_inv c s R) as [HI HF].
  pose proof HI as (I1 & I2 & I3 & I4 & I5).
  pose proof (I3 g e w Hg ltac:(lia) Hw) as PK. unfold APkg in PK.
  replace (e <? 4) with true in PK by lia. cbn [andb] in PK.
  destruct (Nat.eqb_spec (cf (tg s g) e) 1) as [CE|]; [|destruct S as [S|S]; rewrite S in PK; destruct PK as [_ [?|?]]; discriminate].
  destruct l as [mpi|w0 g0 e0|w0|w0]; cbn [astep] in E.
  - unfold asched_step in E. destruct (fin s); [discriminate|].
    destruct (nth_error (aprog c) (pc s)) as [[g1 b| |]|]; try discriminate.
    2: { injection E as <- <-. reflexivity. }
    2: { injection E as <- <-. reflexivity. }
    destruct (arun_blk c mpi s g1 b) as [s1 ev1| |] eqn:EB; try discriminate. injection E as <- <-. cbn [tg set_pc].
    destruct (Nat.eq_dec g g1) as [<-|Ne]; [|destruct (ablk_frame _ _ _ _ _ _ _ EB) as (F & _); now rewrite (F g Ne)].
    assert (NS : b = Astep -> tg s1 g = tg s g).
    { intros ->. unfold arun_blk, cfe in EB.
      destruct (Nat.eqb_spec (cf (tg s g) 2) 2) as [C4|]; cbn [andb] in EB; [|injection EB as <- <-; reflexivity].
      destruct (Nat.eqb_spec (cf (tg s g) 3) 2) as [C5|]; cbn [andb] in EB; [|injection EB as <- <-; reflexivity].
      exfalso. pose proof (I1 g Hg) as L. clear - L C4 C5 CE He.
      do 4 (destruct e as [|e]; [openA; lia|]). lia. }
    destruct b; try (rewrite NS by reflexivity; reflexivity); clear NS;
      unfold arun_blk, set_rdy2 in EB;
      repeat match type of EB with (if ?x then _ else _) = _ => destruct x end;
      try discriminate; injection EB as <- <-; cbn [tg with_tg]; rewrite ?fset_eq; reflexivity.
  - pose proof (aget_inv c w0 g0 e0 s HI) as H. rewrite E in H. destruct H as (_ & -> & _). reflexivity.
  - pose proof (astart_inv c w0 s HI) as H. rewrite E in H. destruct H as (_ & -> & _). reflexivity.
  - pose proof (adone_inv c w0 s HI) as H. rewrite E in H. destruct H as (_ & -> & _). reflexivity.
Qed.

(* ------------------------------------------------------------------ *)
(** * Examples: the hypotheses are met *)

Definition aact (c : cfg) (s : rst) (l : option label) : option rst :=
  match l with
  | None => Some s
  | Some l => match astep c s l with ANext s' _ => Some s' | _ => None end
  end.

Definition around (c : cfg) (s : rst) : option rst :=
  if fin s then Some s else
  fold_left (fun o w => match o with Some s => aact c s (worker_label c s w) | None => None end)
            (seq 0 (nW c)) (aact c s (Some (LSched true))).

Lemma aact_reach c s l s' : areach c s -> aact c s l = Some s' -> areach c s'.
Proof.
  intros R. unfold aact. destruct l as [l|]; [|congruence].
  destruct (astep c s l) eqn:E; try discriminate. injection 1 as <-. econstructor; eauto.
Qed.

Lemma around_reach c s s' : areach c s -> around c s = Some s' -> areach c s'.
Proof.
  unfold around. intros R. destruct (fin s); [congruence|].
  assert (G : forall l o s', (forall s0, o = Some s0 -> areach c s0) ->
     fold_left (fun o w => match o with Some s => aact c s (worker_label c s w) | None => None end) l o = Some s' -> areach c s').
  { induction l as [|w l IH]; cbn; intros o s0 H E; [auto|].
    eapply IH; [|exact E]. intros s1 E1. destruct o as [s2|]; [|discriminate].
    eapply aact_reach; [apply H; reflexivity|exact E1]. }
  apply G. intros s0. apply aact_reach. exact R.
Qed.

Fixpoint asearch (P : rst -> bool) (c : cfg) (n : nat) (s : rst) : bool :=
  P s || match n with
         | 0 => false
         | S n => match around c s with Some s' => asearch P c n s' | None => false end
         end.

Lemma asearch_reach P c n s : areach c s -> asearch P c n s = true -> exists s', areach c s' /\ P s' = true.
Proof.
  revert s. induction n as [|n IH]; cbn [asearch]; intros s R E; apply orb_prop in E as [E|E]; eauto; [discriminate|].
  destruct (around c s) as [s1|] eqn:E1; [|discriminate]. eapply IH; [|exact E]. eapply around_reach; eauto.
Qed.

(** three groups, two workers, one full and one synchronizing step of the largest group: the run ends *)
Example C07_ex_end : exists s, areach ex_cfg s /\ fin s = true /\
  exe s 0 2 1 = 8 /\ exe s 1 2 1 = 4 /\ exe s 2 2 1 = 2.
Proof.
  destruct (asearch_reach (fun s => fin s && (exe s 0 2 1 =? 8) && (exe s 1 2 1 =? 4) && (exe s 2 2 1 =? 2))
              ex_cfg 2000 ex_init) as (s & R & H); [constructor|vm_compute; reflexivity|].
  exists s. repeat (apply andb_prop in H as [H ?]).
  repeat match goal with [ K : (_ =? _) = true |- _ ] => apply Nat.eqb_eq in K end. auto.
Qed.

(** a reachable state in which a worker computes the neighbouring update of the middle group in its second step *)
Example C07_ex_neigh : exists s, areach ex_cfg s /\ computing s 1 1 2 /\ nTs (tg s 1) = 1 /\ stat s 1 2 1 = IPR.
Proof.
  destruct (asearch_reach (fun s => match cur s 1 with Busy g e => (g =? 1) && (e =? 2) | _ => false end && (nTs (tg s 1) =? 1)
                                    && status_eqb (stat s 1 2 1) IPR)
              ex_cfg 2000 ex_init) as (s & R & H); [constructor|vm_compute; reflexivity|].
  exists s. apply andb_prop in H as [H H3]. apply andb_prop in H as [H H2]. apply Nat.eqb_eq in H2. apply status_eqb_iff in H3.
  split; [exact R|]. split; [|split; [exact H2|exact H3]].
  unfold computing. destruct (cur s 1); try discriminate. apply andb_prop in H as [H H1].
  apply Nat.eqb_eq in H, H1. congruence.
Qed.

Print Assumptions C07_exact_updates.
Print Assumptions C07_stage_order.
Print Assumptions C07_neighbour_data.
Print Assumptions C07_no_abort.
Print Assumptions C07_never_stuck.
Print Assumptions C07_stable_time_step.
