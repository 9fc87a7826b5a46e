(** Properties C01, C02, C03, C05: local time stepping on one rank, any interleaving of scheduler and workers,
    any answers of MPI. *)
From Verif Require Import Util SchedModel SchedProofs SchedInv SchedReach.

(* ------------------------------------------------------------------ *)
(** * Specification, independent of the scheduler *)

(** number of time steps of group [g]: [nFull] full steps of the largest group plus one synchronizing step,
    each of them halved once per group below the largest *)
Definition spec_steps (c : cfg) (g : nat) : nat := (nFull c + 1) * 2 ^ (nT c - 1 - g).

(** simulated time (in steps of group 0) of step [n] of group [g], whose steps are [2^g] times longer *)
Definition spec_interval (g n : nat) : tag := Some (n * 2 ^ g, (n + 1) * 2 ^ g).

(** groups of adjacent elements differ by at most one *)
Definition adjacent (g h : nat) : Prop := h = g \/ h = g + 1 \/ g = h + 1.

(** worker [w] is computing its package of entry [e] of group [g] *)
Definition computing (s : rst) (w g e : nat) : Prop := cur s w = Busy g e.

Lemma spec_steps_nReq c g : spec_steps c g = nReq c g.
Proof. unfold spec_steps, nReq, nReqFull, maxDiv. lia. Qed.

(* ------------------------------------------------------------------ *)
(** * C01 *)

(** When the scheduler declares the synchronization point reached, every work package of every step (local, sources,
    neighbouring; inner and send; all workers) has been executed exactly the required number of times, all of them are
    finished, and sends and receives have been performed once per step. *)
Theorem C01_exact_updates c s : reach c s -> fin s = true ->
  forall g, g < nT c ->
    nTs (tg s g) = spec_steps c g /\ nSe (tg s g) = spec_steps c g /\ nRe (tg s g) = spec_steps c g /\
    forall e w, e < 6 -> w < nW c ->
      exe s g e w = spec_steps c g /\ stat s g e w <> RDY /\ stat s g e w <> IPR.
Proof.
  intros R Hf g Hg. destruct (reach_inv c s R) as ((I1 & I2 & I3 & I4 & I5 & I6) & HF1 & HF2 & HF3).
  pose proof (HF2 Hf g Hg) as D. pose proof (I1 g Hg) as L.
  destruct (done_facts _ _ L D) as (D0 & D1 & D2 & D3 & D4 & D5 & D6 & D7 & E1 & E2 & E3 & E4 & E5 & E6 & E7 & E8 & E9).
  rewrite spec_steps_nReq. repeat apply conj; auto.
  intros e w He Hw. specialize (I3 g e w Hg He Hw). unfold PkgOk in I3.
  assert (NE : (cf (tg s g) e =? 1) = false).
  { e6 e He; rewrite ?D0, ?D1, ?D2, ?D3, ?D4, ?D5; reflexivity. }
  rewrite NE in I3. destruct I3 as [-> I3].
  split; [|destruct I3 as [-> | ->]; split; discriminate].
  e6 e He; cbn [cnt]; assumption.
Qed.

Lemma stage_facts N t : Loc N t -> let n := nTs t in
  (cf t 0 = 1 -> n < N /\ tpI t = n /\ cf t 2 <> 1 /\ srI t = n /\ cf t 4 <> 1 /\ duI t = n) /\
  (cf t 1 = 1 -> n < N /\ tpS t = n /\ cf t 3 <> 1 /\ srS t = n /\ cf t 5 <> 1 /\ duS t = n) /\
  (cf t 2 = 1 -> n < N /\ cf t 0 <> 1 /\ tpI t = n + 1 /\ srI t = n /\ cf t 4 <> 1 /\ duI t = n) /\
  (cf t 3 = 1 -> n < N /\ cf t 1 <> 1 /\ tpS t = n + 1 /\ srS t = n /\ cf t 5 <> 1 /\ duS t = n) /\
  (cf t 4 = 1 -> n < N /\ cf t 0 <> 1 /\ cf t 1 <> 1 /\ tpI t = n + 1 /\ tpS t = n + 1 /\ cf t 2 <> 1 /\ srI t = n + 1 /\ duI t = n) /\
  (cf t 5 = 1 -> n < N /\ cf t 0 <> 1 /\ cf t 1 <> 1 /\ tpI t = n + 1 /\ tpS t = n + 1 /\ cf t 3 <> 1 /\ srS t = n + 1 /\ duS t = n).
Proof. intros L n. unfold n. open_loc. Qed.

(** Within a time step, the three stages are executed in order, and a stage is completed by all workers before the next
    starts; the neighbouring stages also wait for the local stages of the other part. *)
Theorem C01_stage_order c s w g e : reach c s -> computing s w g e ->
  w < nW c /\ g < nT c /\ e < 6 /\ nTs (tg s g) < spec_steps c g /\ exe s g e w = nTs (tg s g) /\
  forall e' w', e' < 6 -> w' < nW c ->
    (e' < e -> e' mod 2 = e mod 2 -> exe s g e' w' = nTs (tg s g) + 1) /\
    (e < e' -> e' mod 2 = e mod 2 -> exe s g e' w' = nTs (tg s g)) /\
    (e' < 2 -> 4 <= e -> exe s g e' w' = nTs (tg s g) + 1).
Proof.
  intros R C. destruct (reach_inv c s R) as ((I1 & I2 & I3 & I4 & I5 & I6) & _).
  destruct I4 as (J1 & J2 & J3). destruct (J2 _ _ _ C) as (K1 & K2 & K3 & K4).
  pose proof (I3 g e w K3 K4 K2) as PK. rewrite K1 in PK. unfold PkgOk in PK.
  destruct (Nat.eqb_spec (cf (tg s g) e) 1) as [CE|]; [|destruct PK as [_ [?|?]]; discriminate].
  pose proof (I1 g K3) as L. rewrite spec_steps_nReq. rewrite PK.
  repeat (split; [assumption|]).
  assert (X : forall e' w', e' < 6 -> w' < nW c -> cf (tg s g) e' <> 1 -> exe s g e' w' = cnt (tg s g) e').
  { intros e' w' He' Hw' N1. specialize (I3 g e' w' K3 He' Hw'). unfold PkgOk in I3.
    destruct (Nat.eqb_spec (cf (tg s g) e') 1); [contradiction|]. tauto. }
  destruct (stage_facts _ _ L) as (Q0 & Q1 & Q2 & Q3 & Q4 & Q5). clear L.
  assert (Q : nTs (tg s g) < nReq c g /\ cnt (tg s g) e = nTs (tg s g)).
  { clear X. e6 e K4; cbn [cnt]; tauto. }
  split; [tauto|]. split; [tauto|]. clear Q.
  intros e' w' He' Hw'. specialize (X e' w' He' Hw').
  e6 e K4; first [destruct (Q0 CE) as (? & ? & ? & ? & ? & ?) | destruct (Q1 CE) as (? & ? & ? & ? & ? & ?)
    | destruct (Q2 CE) as (? & ? & ? & ? & ? & ?) | destruct (Q3 CE) as (? & ? & ? & ? & ? & ?)
    | destruct (Q4 CE) as (? & ? & ? & ? & ? & ? & ? & ?) | destruct (Q5 CE) as (? & ? & ? & ? & ? & ? & ? & ?)];
  clear Q0 Q1 Q2 Q3 Q4 Q5;
  e6 e' He'; cbn [Nat.modulo Nat.divmod fst snd Nat.sub cnt] in *;
    repeat apply conj; intros; try discriminate; try lia; rewrite X by assumption; assumption.
Qed.

(* ------------------------------------------------------------------ *)
(** * C02 *)

(** the state of the groups next to a group whose neighbouring stage is active *)
Lemma neigh_window c s w g e : reach c s -> computing s w g e -> 4 <= e ->
  forall h, h < nT c -> adjacent g h ->
  let n := nTs (tg s g) in
  let x := if h =? g then n + 1 else if h <? g then 2 * (n + 1) else n / 2 + 1 in
  cf (tg s h) 0 <> 1 /\ cf (tg s h) 1 <> 1 /\ tpI (tg s h) = x /\ tpS (tg s h) = x.
Proof.
  intros R C He h Hh A n x. destruct (reach_inv c s R) as ((I1 & I2 & I3 & I4 & I5 & I6) & _).
  destruct I4 as (J1 & J2 & J3). destruct (J2 _ _ _ C) as (K1 & K2 & K3 & K4).
  pose proof (I3 g e w K3 K4 K2) as PK. rewrite K1 in PK. unfold PkgOk in PK.
  destruct (Nat.eqb_spec (cf (tg s g) e) 1) as [CE|]; [|destruct PK as [_ [?|?]]; discriminate].
  pose proof (I1 g K3) as L. pose proof (I1 h Hh) as Lh.
  assert (CE' : cf (tg s g) 4 = 1 \/ cf (tg s g) 5 = 1).
  { do 4 (destruct e as [|e]; [lia|]). destruct e as [|[|e]]; [auto|auto|lia]. }
  assert (ST : started (tg s g)) by (unfold started; tauto).
  pose proof (Loc_facts _ _ L) as (F0 & F1 & F2 & F3 & F4 & F5 & F6 & F6' & F7 & F8 & F9 & F10 & F11 & F12).
  destruct (F5 ST) as (T1 & T2 & T3).
  assert (DU : duI (tg s g) = nTs (tg s g) \/ duS (tg s g) = nTs (tg s g)) by tauto.
  assert (LC : forall t N, Loc N t -> tpI t = nTs t + 1 -> tpS t = nTs t + 1 -> cf t 0 <> 1 /\ cf t 1 <> 1).
  { clear. intros t N L H1 H2. open_loc; cbn in *; lia. }
  subst x. destruct (Nat.eqb_spec h g) as [->|Ne].
  { destruct (LC _ _ L T1 T2). auto. }
  pose proof (Loc_facts _ _ Lh) as (G0 & G1 & G2 & G3 & G4 & G5 & _).
  destruct (Nat.ltb_spec h g) as [Lt|Ge].
  - (* smaller *)
    assert (h = g - 1) as -> by (unfold adjacent in A; lia).
    pose proof (I2 (g - 1) ltac:(lia)) as P. replace (g - 1 + 1) with g in P by lia.
    destruct P as (P1 & P2 & P3 & P4 & P5 & P6). destruct (P6 ST) as [Q1 Q2]. fold n in Q1, Q2, P4, P2 |- *.
    assert (nTs (tg s (g - 1)) <> 2 * n + 2).
    { intros E. destruct (P4 E). unfold n in *. lia. }
    assert (E1 : tpI (tg s (g - 1)) = 2 * (n + 1)) by lia. assert (E2 : tpS (tg s (g - 1)) = 2 * (n + 1)) by lia.
    assert (nTs (tg s (g - 1)) = 2 * n + 1) by lia.
    destruct (LC _ _ Lh) as [? ?]; [lia|lia|]. auto.
  - (* larger *)
    assert (h = g + 1) as -> by (unfold adjacent in A; lia).
    pose proof (I2 g Hh) as (P1 & P2 & P3 & P4 & P5 & P6). destruct (P5 ST) as [Q1 Q2].
    fold n in P1, P2, P3, P4, Q1, Q2, DU |- *.
    set (b := nTs (tg s (g + 1))) in *.
    assert (n + 1 <> 2 * b). { intros E. destruct (P3 E). lia. }
    assert (n = 2 * b \/ n = 2 * b + 1) as EB by lia.
    assert (n / 2 = b) as ->.
    { symmetry. destruct EB; [apply (Nat.div_unique _ _ _ 0)|apply (Nat.div_unique _ _ _ 1)]; lia. }
    assert (tpI (tg s (g + 1)) = b + 1) by lia. assert (tpS (tg s (g + 1)) = b + 1) by lia.
    destruct (LC _ _ Lh) as [? ?]; auto.
Qed.

(** Whenever a worker computes the neighbouring update of step [n] of group [g] -- at any moment of this computation --
    the data it reads for a face, of whatever element on this rank (in the same or an adjacent group, inner or send,
    computed by whichever worker), is the integral over exactly the interval of step [n] of group [g];
    and nobody is (or may start) overwriting it. *)
Theorem C02_neighbour_data c s w g e : reach c s -> computing s w g e -> 4 <= e ->
  forall h e' w', h < nT c -> adjacent g h -> e' < 2 -> w' < nW c ->
    read_face s g h e' w' = spec_interval g (exe s g e w) /\
    stat s h e' w' <> RDY /\ stat s h e' w' <> IPR /\ ~ computing s w' h e'.
Proof.
  intros R C He h e' w' Hh A He' Hw'.
  pose proof (neigh_window c s w g e R C He h Hh A) as (N0 & N1 & N2 & N3).
  destruct (C01_stage_order c s w g e R C) as (W1 & W2 & W3 & W4 & W5 & _).
  destruct (reach_inv c s R) as ((I1 & I2 & I3 & I4 & I5 & I6) & _).
  assert (He6 : e' < 6) by lia.
  pose proof (I3 h e' w' Hh He6 Hw') as PK. unfold PkgOk in PK.
  assert (NE : (cf (tg s h) e' =? 1) = false) by (destruct e' as [|[|e']]; lia).
  rewrite NE in PK. destruct PK as [PX PS].
  set (n := nTs (tg s g)) in *. rewrite W5.
  assert (X : exe s h e' w' = if h =? g then n + 1 else if h <? g then 2 * (n + 1) else n / 2 + 1).
  { rewrite PX. destruct e' as [|[|e']]; [exact N2|exact N3|lia]. }
  split.
  - pose proof (I5 h e' w' Hh He' Hw') as B. rewrite X in B. unfold read_face, spec_interval.
    pose proof (Nat.div_mod n 2 ltac:(lia)) as DM. pose proof (Nat.mod_upper_bound n 2 ltac:(lia)) as MB.
    destruct (Nat.eqb_spec h g) as [->|Ne].
    + replace (n + 1) with (S n) in B by lia. destruct B as (-> & _). reflexivity.
    + destruct (Nat.ltb_spec h g) as [Lt|Ge].
      * assert (g = S h) as -> by (unfold adjacent in A; lia).
        replace (2 * (n + 1)) with (S (2 * n + 1)) in B by lia. destruct B as (_ & -> & _).
        assert ((2 * n + 1) / 2 = n) as ->. { symmetry. apply (Nat.div_unique _ _ _ 1); lia. }
        replace (2 ^ S h) with (2 * 2 ^ h) by reflexivity.
        f_equal. f_equal; lia.
      * assert (h = S g) as -> by (unfold adjacent in A; lia).
        replace (n / 2 + 1) with (S (n / 2)) in B by lia. destruct B as (B0 & _ & B2).
        rewrite B0, B2. fold n. replace (2 ^ S g) with (2 * 2 ^ g) by reflexivity.
        replace (S g - 1) with g by lia. unfold iv. replace (2 ^ S g) with (2 * 2 ^ g) by reflexivity.
        destruct (Nat.eqb_spec (n mod 2) 0) as [E|E].
        -- f_equal. rewrite E in DM. rewrite DM at 3 4. f_equal; lia.
        -- assert (n mod 2 = 1) as E' by lia. rewrite E' in DM. unfold tag_sub. rewrite Nat.eqb_refl. cbn [andb].
           replace (n / 2 * (2 * 2 ^ g) + 2 ^ g <=? (n / 2 + 1) * (2 * 2 ^ g)) with true
             by (symmetry; apply Nat.leb_le; nia).
           f_equal. rewrite DM at 3 4. f_equal; lia.
  - assert (S1 : stat s h e' w' <> RDY) by (destruct PS as [-> | ->]; discriminate).
    assert (S2 : stat s h e' w' <> IPR) by (destruct PS as [-> | ->]; discriminate).
    repeat apply conj; auto. intros K. destruct I4 as (_ & J2 & _). destruct (J2 _ _ _ K). contradiction.
Qed.

(* ------------------------------------------------------------------ *)
(** * C03 *)

(** No check of the status machine (setStatusAll, setStatusTd) ever fails. *)
Theorem C03_no_abort c s l : reach c s -> rstep c s l <> Fail.
Proof.
  intros R. destruct (reach_inv c s R) as [HI HF].
  pose proof (rstep_inv c s l HI HF) as H. destruct (rstep c s l); [discriminate|discriminate|contradiction].
Qed.

(** Until the synchronization point is reached, the scheduling thread can always take its next step, and so can a worker
    which has got or is computing a package. *)
Theorem C03_never_stuck c s : reach c s ->
  (fin s = false -> forall mpi, exists s' ev, rstep c s (LSched mpi) = Next s' ev) /\
  (forall w g e, cur s w = Got g e -> exists s', rstep c s (LStart w) = Next s' None) /\
  (forall w g e, cur s w = Busy g e -> exists s', rstep c s (LDone w) = Next s' None).
Proof.
  intros R. destruct (reach_inv c s R) as [HI HF]. repeat apply conj.
  - intros Hf mpi. pose proof (sched_inv c mpi s HI HF) as H. cbn [rstep].
    destruct (sched_step c mpi s) as [s' ev| |]; eauto; [congruence|contradiction].
  - intros w g e C. pose proof (start_inv c w s HI) as H. cbn [rstep]. unfold start_step in *. rewrite C in *.
    destruct (negb _); [contradiction|]. eauto.
  - intros w g e C. pose proof (done_inv c w s HI) as H. cbn [rstep]. unfold done_step in *. rewrite C in *.
    destruct (negb _); [contradiction|]. eauto.
Qed.

(* ------------------------------------------------------------------ *)
(** * C05 *)

(** While a package of a group is handed out or computed, the group's time step data (step count, and with it the
    current time step and covered time, which change in the same operation) does not change. *)
Theorem C05_stable_time_step c s l s' ev g e w :
  reach c s -> rstep c s l = Next s' ev -> g < nT c -> e < 6 -> w < nW c ->
  stat s g e w = RDY \/ stat s g e w = IPR ->
  nTs (tg s' g) = nTs (tg s g).
Proof.
  intros R E Hg He Hw S. destruct (reach_inv c s R) as [HI HF].
  pose proof HI as (I1 & I2 & I3 & I4 & I5 & I6).
  pose proof (I3 g e w Hg He Hw) as PK. unfold PkgOk in PK.
  destruct (Nat.eqb_spec (cf (tg s g) e) 1) as [CE|]; [|destruct S as [S|S]; rewrite S in PK; destruct PK as [_ [?|?]]; discriminate].
  destruct l as [mpi|w0 g0 e0|w0|w0]; cbn [rstep] in E.
  - unfold sched_step in E. destruct (fin s); [discriminate|].
    destruct (nth_error (prog c) (pc s)) as [[g1 b| |]|]; try discriminate.
    2: { injection E as <- <-. reflexivity. }
    2: { injection E as <- <-. reflexivity. }
    destruct (run_blk c mpi s g1 b) as [s1 ev1| |] eqn:EB; try discriminate. injection E as <- <-. cbn [tg set_pc].
    destruct (Nat.eq_dec g g1) as [<-|Ne]; [|rewrite (blk_frame _ _ _ _ _ _ _ EB g Ne); reflexivity].
    assert (NS : b = Sstep -> tg s1 g = tg s g).
    { intros ->. unfold run_blk in EB. unfold cfe in EB.
      destruct (Nat.eqb_spec (cf (tg s g) 4) 2) as [C4|]; cbn [andb] in EB; [|injection EB as <- <-; reflexivity].
      destruct (Nat.eqb_spec (cf (tg s g) 5) 3) as [C5|]; cbn [andb] in EB; [|injection EB as <- <-; reflexivity].
      exfalso. pose proof (I1 g Hg) as L. clear - L C4 C5 CE He.
      e6 e He; open_loc; cbn in *; lia. }
    destruct b; try (rewrite NS by reflexivity; reflexivity); clear NS;
      unfold run_blk, set_rdy in EB;
      repeat match type of EB with (if ?x then _ else _) = _ => destruct x end;
      try discriminate; injection EB as <- <-; cbn [tg with_tg]; rewrite ?fset_eq; reflexivity.
  - apply get_inv in E; [|exact HI]. destruct E as (_ & -> & _). reflexivity.
  - pose proof (start_inv c w0 s HI) as H. rewrite E in H. destruct H as (_ & -> & _). reflexivity.
  - pose proof (done_inv c w0 s HI) as H. rewrite E in H. destruct H as (_ & -> & _). reflexivity.
Qed.

(* ------------------------------------------------------------------ *)
(** * Examples: the hypotheses are met *)

(** a driver: scheduler step, then every worker advances by one action *)
Definition find_rdy (c : cfg) (s : rst) (w : nat) : option (nat * nat) :=
  find (fun ge => status_eqb (stat s (fst ge) (snd ge) w) RDY)
       (flat_map (fun g => map (fun e => (g, e)) (seq 0 6)) (seq 0 (nT c))).

Definition worker_label (c : cfg) (s : rst) (w : nat) : option label :=
  match cur s w with
  | Idle => match find_rdy c s w with Some (g, e) => Some (LGet w g e) | None => None end
  | Got _ _ => Some (LStart w)
  | Busy _ _ => Some (LDone w)
  end.

Definition act (c : cfg) (s : rst) (l : option label) : option rst :=
  match l with
  | None => Some s
  | Some l => match rstep c s l with Next s' _ => Some s' | _ => None end
  end.

Definition round (c : cfg) (s : rst) : option rst :=
  if fin s then Some s else
  fold_left (fun o w => match o with Some s => act c s (worker_label c s w) | None => None end)
            (seq 0 (nW c)) (act c s (Some (LSched true))).

Lemma act_reach c s l s' : reach c s -> act c s l = Some s' -> reach c s'.
Proof.
  intros R. unfold act. destruct l as [l|]; [|congruence].
  destruct (rstep c s l) eqn:E; try discriminate. injection 1 as <-. econstructor; eauto.
Qed.

Lemma round_reach c s s' : reach c s -> round c s = Some s' -> reach c s'.
Proof.
  unfold round. intros R. destruct (fin s); [congruence|].
  assert (G : forall l o s', (forall s0, o = Some s0 -> reach c s0) ->
     fold_left (fun o w => match o with Some s => act c s (worker_label c s w) | None => None end) l o = Some s' -> reach c s').
  { induction l as [|w l IH]; cbn; intros o s0 H E; [auto|].
    eapply IH; [|exact E]. intros s1 E1. destruct o as [s2|]; [|discriminate].
    eapply act_reach; [apply H; reflexivity|exact E1]. }
  apply G. intros s0. apply act_reach. exact R.
Qed.

Definition ex_cfg : cfg := mkCfg 3 2 1.
Definition ex_init : rst := init (fun _ _ _ => mkBufs None None None) (fun _ _ _ => (None, None)).

(** some state of the run of the driver satisfies [P] *)
Fixpoint search (P : rst -> bool) (c : cfg) (n : nat) (s : rst) : bool :=
  P s || match n with
         | 0 => false
         | S n => match round c s with Some s' => search P c n s' | None => false end
         end.

Lemma search_reach P c n s : reach c s -> search P c n s = true -> exists s', reach c s' /\ P s' = true.
Proof.
  revert s. induction n as [|n IH]; cbn [search]; intros s R E; apply orb_prop in E as [E|E]; eauto; [discriminate|].
  destruct (round c s) as [s1|] eqn:E1; [|discriminate]. eapply IH; [|exact E]. eapply round_reach; eauto.
Qed.

(** three groups, two workers, one full and one synchronizing step of the largest group: the run ends *)
Example C01_ex : exists s, reach ex_cfg s /\ fin s = true /\
  exe s 0 4 1 = 8 /\ exe s 1 4 1 = 4 /\ exe s 2 4 1 = 2.
Proof.
  destruct (search_reach (fun s => fin s && (exe s 0 4 1 =? 8) && (exe s 1 4 1 =? 4) && (exe s 2 4 1 =? 2))
              ex_cfg 2000 ex_init) as (s & R & H); [constructor|vm_compute; reflexivity|].
  exists s. repeat (apply andb_prop in H as [H ?]).
  repeat match goal with [ K : (_ =? _) = true |- _ ] => apply Nat.eqb_eq in K end. auto.
Qed.

(** a reachable state in which a worker computes the neighbouring update of the middle group in its second step *)
Example C02_ex : exists s, reach ex_cfg s /\ computing s 1 1 4 /\ nTs (tg s 1) = 1.
Proof.
  destruct (search_reach (fun s => match cur s 1 with Busy g e => (g =? 1) && (e =? 4) | _ => false end && (nTs (tg s 1) =? 1))
              ex_cfg 2000 ex_init) as (s & R & H); [constructor|vm_compute; reflexivity|].
  exists s. apply andb_prop in H as [H H2]. apply Nat.eqb_eq in H2. split; [exact R|]. split; [|exact H2].
  unfold computing. destruct (cur s 1); try discriminate. apply andb_prop in H as [H H1].
  apply Nat.eqb_eq in H, H1. congruence.
Qed.

Print Assumptions C01_exact_updates.
Print Assumptions C01_stage_order.
Print Assumptions C02_neighbour_data.
Print Assumptions C03_no_abort.
Print Assumptions C03_never_stuck.
Print Assumptions C05_stable_time_step.
