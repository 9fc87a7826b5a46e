(** Property C61: messages of the advection solver's scheduler.

    A rank and its outstanding MPI operations: beginSends( lt, g ) and beginRecvs( lt, g ) (src/parallel/Distributed.h) make the operations of the group [g] outstanding,
    the network completes them at an arbitrary later time, and finSends( lt, g ), finRecvs( lt, g ) return true only if the tested operations are not outstanding. *)
From Verif Require Import Util SchedModel SchedProofs SchedInv SchedReach SchedAdv SchedAdvProofs Props_Sched Props_Adv.

(** ** Specification: operations of a rank *)
Record net := mkNet {
  oS : bool -> nat -> bool;   (* outstanding sends of a group, by flag *)
  oR : bool -> nat -> bool;   (* outstanding receives *)
  pS : nat -> nat;            (* number of calls to beginSends by group *)
  pR : nat -> nat             (* number of calls to beginRecvs by group *)
}.
Definition net0 : net := mkNet (fun _ _ => false) (fun _ _ => false) (fun _ => 0) (fun _ => 0).

Definition set2 (f : bool -> nat -> bool) (lt : bool) (g : nat) (v : bool) : bool -> nat -> bool :=
  fun lt' g' => if Bool.eqb lt' lt && (g' =? g) then v else f lt' g'.

Definition post (n : net) (e : event) : net :=
  match e with
  | EvSend lt g => mkNet (set2 (oS n) lt g true) (oR n) (fset (pS n) g (S (pS n g))) (pR n)
  | EvRecv lt g => mkNet (oS n) (set2 (oR n) lt g true) (pS n) (fset (pR n) g (S (pR n g)))
  end.

(** The operations which are tested by the scheduling thread's next block.
    Models the arguments of finSends and finRecvs in src/impl/advection/inc/time/man_sched.inc:76, 81. *)
Definition tested (c : cfg) (s : rst) : option event :=
  match nth_error (aprog c) (pc s) with
  | Some (AI g Asend4) => Some (EvSend (nTs (tg s g) mod 2 =? 1) g)
  | Some (AI g Arecv5) => Some (EvRecv (nTs (tg s g) mod 2 =? 0) g)
  | _ => None
  end.

(** a positive answer implies that the tested operations are completed *)
Definition answer_ok (c : cfg) (s : rst) (n : net) (l : label) : Prop :=
  match l with
  | LSched true => match tested c s with
                   | Some (EvSend lt g) => oS n lt g = false
                   | Some (EvRecv lt g) => oR n lt g = false
                   | None => True
                   end
  | _ => True
  end.

Inductive hreach (c : cfg) : rst -> net -> Prop :=
| hreach0 b0 sb0 : hreach c (init b0 sb0) net0
| hreachS s n l s' ev : hreach c s n -> answer_ok c s n l -> astep c s l = ANext s' ev -> hreach c s' (fold_left post ev n)
| hreach_send s n lt g : hreach c s n -> hreach c s (mkNet (set2 (oS n) lt g false) (oR n) (pS n) (pR n))
| hreach_recv s n lt g : hreach c s n -> hreach c s (mkNet (oS n) (set2 (oR n) lt g false) (pS n) (pR n)).

(** no operation of the group is outstanding *)
Definition quiet (n : net) (g : nat) : Prop := forall lt, oS n lt g = false /\ oR n lt g = false.

(** ** Proofs *)
Lemma hreach_areach c s n : hreach c s n -> areach c s.
Proof. induction 1; eauto using areach. Qed.

Definition nPost (t : tgs) (k : nat) : Prop := (cf t 1 = 3 \/ cf t 1 = 4 -> k = nTs t + 1) /\ (cf t 1 <> 3 -> cf t 1 <> 4 -> k = nTs t).
Definition HLoc (t : tgs) (n : net) (g : nat) : Prop :=
  nPost t (pS n g) /\ nPost t (pR n g) /\
  (forall lt, oS n lt g = true -> cf t 4 = 1 /\ lt = (nTs t mod 2 =? 1)) /\
  (forall lt, oR n lt g = true -> cf t 5 = 1 /\ lt = (nTs t mod 2 =? 0)).
Definition HInv (c : cfg) (s : rst) (n : net) : Prop := forall g, g < nT c -> HLoc (tg s g) n g.

Lemma hloc_other t n e g : match e with EvSend _ h | EvRecv _ h => h <> g end -> HLoc t n g -> HLoc t (post n e) g.
Proof.
  intros NE (A & B & C & D). destruct e as [lt h|lt h]; unfold HLoc; cbn [post pS pR oS oR]; unfold set2, fset; replace (g =? h) with false by (symmetry; apply Nat.eqb_neq; auto);
    (split; [exact A|split; [exact B|]]); split; intros lt'; rewrite ?andb_false_r; auto.
Qed.
Lemma hloc_others t g : forall ev n, Forall (fun e => match e with EvSend _ h | EvRecv _ h => h <> g end) ev -> HLoc t n g -> HLoc t (fold_left post ev n) g.
Proof. induction ev as [|e ev IH]; intros n F H; [exact H|]. inversion F; subst. cbn. apply IH; auto using hloc_other. Qed.

Ltac gs := repeat match goal with [ H : (_ && _)%bool = true |- _ ] => apply andb_prop in H as [? ?] end;
  unfold cfe, cfMax in *; repeat match goal with [ H : (_ =? _) = true |- _ ] => apply Nat.eqb_eq in H end.

Lemma hblk_loc c mpi s g b s' ev n : AInv c s -> g < nT c -> HLoc (tg s g) n g -> answer_ok c s n (LSched mpi) -> nth_error (aprog c) (pc s) = Some (AI g b) ->
  arun_blk c mpi s g b = ANext s' ev -> HLoc (tg s' g) (fold_left post ev n) g /\ Forall (fun e => match e with EvSend _ h | EvRecv _ h => h = g end) ev.
Proof.
  intros HI Hg HV AN EN E. assert (L : ALoc (nReq c g) (tg s g)) by (destruct HI as (I1 & _); auto). clear HI.
  destruct HV as ((VA & VB) & (VC & VD) & V3 & V4). unfold answer_ok, tested in AN. rewrite EN in AN. clear EN.
  destruct b; unfold arun_blk, set_rdy2 in E; cbv zeta in E.
  - destruct (cfe (tg s g) 0 cfMax) eqn:G; [|injection E as <- <-; cbn [fold_left]; split; [|constructor]; split; [split; auto|split; [split; auto|auto]]]. destruct (_ && _); [|discriminate]. injection E as <- <-. cbn [tg with_tg fold_left]. rewrite fset_eq. gs. split; [|constructor].
    clear - L VA VB VC VD V3 V4 G. split; [|split; [|split]]; [| |intros lt O; destruct (V3 lt O) as (C & _)|intros lt O; destruct (V4 lt O) as (C & _)]; unfold nPost in *; cbn; openA; lia.
  - destruct (cfe (tg s g) 0 1 && _) eqn:G; injection E as <- <-; cbn [tg with_tg fold_left]; rewrite ?fset_eq; (split; [|constructor]); [|split; [split; auto|split; [split; auto|auto]]]. gs.
    split; [|split; [|split]]; unfold nPost in *; cbn; auto.
  - destruct (cfe (tg s g) 1 1 && _) eqn:G; injection E as <- <-; cbn [tg with_tg fold_left]; rewrite ?fset_eq; (split; [|constructor]); [|split; [split; auto|split; [split; auto|auto]]]. gs.
    split; [|split; [|split]]; unfold nPost in *; cbn; auto; lia.
  - destruct (cfe (tg s g) 2 1 && _) eqn:G; injection E as <- <-; cbn [tg with_tg fold_left]; rewrite ?fset_eq; (split; [|constructor]); [|split; [split; auto|split; [split; auto|auto]]]. gs.
    split; [|split; [|split]]; unfold nPost in *; cbn; auto.
  - destruct (cfe (tg s g) 3 1 && _) eqn:G; injection E as <- <-; cbn [tg with_tg fold_left]; rewrite ?fset_eq; (split; [|constructor]); [|split; [split; auto|split; [split; auto|auto]]]. gs.
    split; [|split; [|split]]; unfold nPost in *; cbn; auto.
  - destruct (cfe (tg s g) 4 1 && mpi) eqn:G; injection E as <- <-; cbn [tg with_tg fold_left]; rewrite ?fset_eq; (split; [|constructor]); [|split; [split; auto|split; [split; auto|auto]]]. gs. subst mpi.
    split; [|split; [|split]]; unfold nPost in *; cbn -[Nat.modulo]; auto. intros lt O. exfalso. destruct (V3 lt O) as (_ & ->). congruence.
  - destruct (cfe (tg s g) 5 1 && mpi) eqn:G; injection E as <- <-; cbn [tg with_tg fold_left]; rewrite ?fset_eq; (split; [|constructor]); [|split; [split; auto|split; [split; auto|auto]]]. gs. subst mpi.
    split; [|split; [|split]]; unfold nPost in *; cbn -[Nat.modulo]; auto. intros lt O. exfalso. destruct (V4 lt O) as (_ & ->). congruence.
  - destruct (cfe (tg s g) 1 2) eqn:G; injection E as <- <-; cbn [tg with_tg fold_left]; rewrite ?fset_eq; [|split; [|constructor]; split; [split; auto|split; [split; auto|auto]]]. split; [|repeat constructor]. gs.
    assert (C : cf (tg s g) 4 = 0 /\ cf (tg s g) 5 = 0) by (clear - L G; openA; lia). destruct C as (C4 & C5).
    unfold HLoc, nPost in *. cbn -[Nat.modulo]. unfold set2. rewrite !fset_eq, !Nat.eqb_refl. split; [lia|split; [lia|split]]; intros lt O; rewrite andb_true_r in O.
    + destruct (Bool.eqb lt _) eqn:B; [|destruct (V3 lt O); lia]. apply Bool.eqb_prop in B. auto.
    + destruct (Bool.eqb lt _) eqn:B; [|destruct (V4 lt O); lia]. apply Bool.eqb_prop in B. auto.
  - destruct (_ && predAvailable c s g) eqn:G; [|injection E as <- <-; cbn [fold_left]; split; [|constructor]; split; [split; auto|split; [split; auto|auto]]]. match type of E with (if ?x then _ else _) = _ => destruct x; [|discriminate] end. injection E as <- <-. cbn [tg with_tg fold_left]. rewrite fset_eq. split; [|constructor]. gs.
    split; [|split; [|split]]; [| |intros lt O; destruct (V3 lt O) as (C & _); lia|intros lt O; destruct (V4 lt O) as (C & _); lia]; unfold nPost in *; cbn; lia.
  - destruct (_ && predConsumed c s g) eqn:G; [|injection E as <- <-; cbn [fold_left]; split; [|constructor]; split; [split; auto|split; [split; auto|auto]]]. gs.
    assert (B : cf (tg s g) 1 = 4 /\ cf (tg s g) 4 = 3 /\ cf (tg s g) 5 = 3) by (match goal with [ H : cf _ 2 = 2, K : cf _ 3 = 2 |- _ ] => clear - L H K end; openA; lia). destruct B as (B1 & B4 & B5).
    assert (ev = [] /\ (tg s' g = set_cf2 (set_cf2 (set_cf2 (inc_nTs (tg s g)) 0 1 1) 2 3 0) 4 5 0 \/ tg s' g = set_cf2 (set_cf2 (set_cf2 (inc_nTs (tg s g)) 0 1 0) 2 3 0) 4 5 0)) as (-> & T).
    { destruct (negb _); [destruct (_ && _); [|discriminate]|]; injection E as <- <-; cbn [tg with_tg]; rewrite fset_eq; auto. }
    split; [|constructor]. cbn [fold_left].
    split; [|split; [|split]]; [| |intros lt O; destruct (V3 lt O) as (C & _); lia|intros lt O; destruct (V4 lt O) as (C & _); lia]; unfold nPost in *; destruct T as [-> | ->]; cbn; lia.
  - destruct (finished c g (tg s g)); injection E as <- <-; cbn [fold_left tg]; (split; [|constructor]); (split; [split; auto|split; [split; auto|auto]]).
Qed.

Lemma worker_ev c s l s' ev : (forall mpi, l <> LSched mpi) -> astep c s l = ANext s' ev -> ev = [].
Proof.
  intros N E. destruct l as [mpi|w g e|w|w]; [destruct (N mpi); reflexivity|..]; cbn [astep] in E.
  - unfold get_step in E. destruct (negb _); [discriminate|]. destruct (cur s w); try discriminate. destruct (status_eqb _ _); [|discriminate]. cbn in E. congruence.
  - unfold start_step in E. destruct (cur s w); try discriminate. destruct (negb _); [discriminate|]. cbn in E. congruence.
  - unfold done_step in E. destruct (cur s w); try discriminate. destruct (negb _); [discriminate|]. cbn [lift] in E. congruence.
Qed.

Lemma hreach_inv c s n : hreach c s n -> HInv c s n.
Proof.
  induction 1 as [b0 sb0|s n l s' ev R IH AN E|s n lt g R IH|s n lt g R IH].
  - intros g Hg. unfold HLoc, nPost. cbn. unfold cfMax. split; [lia|split; [lia|split; discriminate]].
  - destruct (areach_inv c s (hreach_areach _ _ _ R)) as [HI HF]. destruct l as [mpi|w g e|w|w]; cbn [astep] in E.
    + unfold asched_step in E. destruct (fin s); [discriminate|]. destruct (nth_error (aprog c) (pc s)) as [[g b| |]|] eqn:EN; try discriminate.
      2: { injection E as <- <-. exact IH. }
      2: { injection E as <- <-. exact IH. }
      destruct (anth_prog_group _ _ _ _ EN) as (Hg & _).
      destruct (arun_blk c mpi s g b) as [s1 ev1| |] eqn:EB; try discriminate. injection E as <- <-.
      destruct (hblk_loc _ _ _ _ _ _ _ _ HI Hg (IH g Hg) AN EN EB) as (HL & FE). intros h Hh. cbn [tg set_pc].
      destruct (Nat.eq_dec h g) as [->|NE]; [exact HL|]. destruct (ablk_frame _ _ _ _ _ _ _ EB) as (F & _). rewrite (F h NE).
      apply hloc_others; [|apply IH; auto]. eapply Forall_impl; [|exact FE]. intros [? ?|? ?] ->; auto.
    + pose proof (aget_inv c w g e s HI) as H. rewrite E in H. destruct H as (_ & T & _). unfold HInv. rewrite T.
      assert (ev = []) as -> by (apply (worker_ev c s (LGet w g e) s'); [discriminate|exact E]). exact IH.
    + pose proof (astart_inv c w s HI) as H. rewrite E in H. destruct H as (_ & T & _). unfold HInv. rewrite T.
      assert (ev = []) as -> by (apply (worker_ev c s (LStart w) s'); [discriminate|exact E]). exact IH.
    + pose proof (adone_inv c w s HI) as H. rewrite E in H. destruct H as (_ & T & _). unfold HInv. rewrite T.
      assert (ev = []) as -> by (apply (worker_ev c s (LDone w) s'); [discriminate|exact E]). exact IH.
  - intros h Hh. destruct (IH h Hh) as (A & B & C & D). split; [exact A|split; [exact B|split; [|exact D]]]. cbn [oS]. intros lt' O. apply C. unfold set2 in O. destruct (_ && _); [discriminate|exact O].
  - intros h Hh. destruct (IH h Hh) as (A & B & C & D). split; [exact A|split; [exact B|split; [exact C|]]]. cbn [oR]. intros lt' O. apply D. unfold set2 in O. destruct (_ && _); [discriminate|exact O].
Qed.

(** ** C61 *)

(** While a worker computes the local update of a group's send elements (1), which writes the send buffers, no message of the group is outstanding, and one message per completed step has been posted.
    While a worker computes a neighbouring update (2, 3), which reads the receive buffers, the messages of all steps including the current one are posted and completed. *)
Theorem C61_steps c s n w g e : hreach c s n -> computing s w g e -> 1 <= e ->
  quiet n g /\ pS n g = exe s g e w + (if e <? 2 then 0 else 1) /\ pR n g = exe s g e w + (if e <? 2 then 0 else 1).
Proof.
  intros R C E1. assert (A := hreach_areach _ _ _ R). destruct (areach_inv c s A) as (HI & _). destruct (acomputing _ _ _ _ _ HI C) as (Hw & Hg & He & CE & EX).
  destruct (C07_stage_order c s w g e A C) as (_ & _ & _ & _ & EQ & _). destruct (hreach_inv c s n R g Hg) as (NS & NR & V3 & V4). destruct HI as (I1 & _). pose proof (I1 g Hg) as L.
  assert (X : cf (tg s g) 4 <> 1 /\ cf (tg s g) 5 <> 1 /\ if e <? 2 then cf (tg s g) 1 <> 3 /\ cf (tg s g) 1 <> 4 else cf (tg s g) 1 = 4).
  { clear - L CE He E1. destruct e as [|e]; [lia|]. do 3 (destruct e as [|e]; [cbn; openA; lia|]). lia. }
  destruct X as (X4 & X5 & X1). unfold nPost in *. split.
  - intros lt. split; [destruct (oS n lt g) eqn:O; auto; destruct (V3 lt O); contradiction|destruct (oR n lt g) eqn:O; auto; destruct (V4 lt O); contradiction].
  - rewrite EQ. destruct (e <? 2); lia.
Qed.

(** Messages are posted only if no message of the group is outstanding and no local or neighbouring update of the group's send elements is handed out or computed;
    all workers have completed the local update of this step. The flag of a send is set in every second step, the one of a receive in the other steps. *)
Theorem C61_post c s n l s' ev e : hreach c s n -> answer_ok c s n l -> astep c s l = ANext s' ev -> In e ev ->
  let g := match e with EvSend _ g | EvRecv _ g => g end in
  g < nT c /\ quiet n g /\ pS n g < spec_steps c g /\ pR n g = pS n g /\
  e = (if match e with EvSend _ _ => true | _ => false end then EvSend (Nat.odd (pS n g)) g else EvRecv (Nat.even (pR n g)) g) /\
  ev = [EvSend (Nat.odd (pS n g)) g; EvRecv (Nat.even (pR n g)) g] /\
  forall w, w < nW c -> exe s g 1 w = pS n g + 1 /\ exe s g 3 w = pS n g /\
    stat s g 1 w <> RDY /\ stat s g 1 w <> IPR /\ stat s g 3 w <> RDY /\ stat s g 3 w <> IPR.
Proof.
  intros R AN E IE. assert (A := hreach_areach _ _ _ R). destruct (areach_inv c s A) as (HI & _). pose proof (hreach_inv c s n R) as HV.
  destruct l as [mpi|w0 g0 e0|w0|w0]; cbn [astep] in E.
  2: { exfalso. assert (ev = []) as -> by (apply (worker_ev c s (LGet w0 g0 e0) s'); [discriminate|exact E]). exact IE. }
  2: { exfalso. assert (ev = []) as -> by (apply (worker_ev c s (LStart w0) s'); [discriminate|exact E]). exact IE. }
  2: { exfalso. assert (ev = []) as -> by (apply (worker_ev c s (LDone w0) s'); [discriminate|exact E]). exact IE. }
  unfold asched_step in E. destruct (fin s); [discriminate|]. destruct (nth_error (aprog c) (pc s)) as [[g b| |]|] eqn:EN; try discriminate.
  2: { injection E as <- <-. contradiction. }
  2: { injection E as <- <-. contradiction. }
  destruct (anth_prog_group _ _ _ _ EN) as (Hg & _). destruct (arun_blk c mpi s g b) as [s1 ev1| |] eqn:EB; try discriminate. injection E as <- <-.
  assert (X : cf (tg s g) 1 = 2 /\ ev1 = [EvSend (nTs (tg s g) mod 2 =? 1) g; EvRecv (nTs (tg s g) mod 2 =? 0) g]).
  { destruct b; unfold arun_blk, set_rdy2 in EB; repeat match type of EB with (if ?x then _ else _) = _ => destruct x eqn:? end; try discriminate; injection EB as <- <-; try contradiction IE. gs. auto. }
  destruct X as (X & ->). destruct (HV g Hg) as (NS & NR & V3 & V4). pose proof HI as (I1 & I2 & I3 & _). pose proof (I1 g Hg) as L. unfold nPost in *.
  assert (Y : cf (tg s g) 4 = 0 /\ cf (tg s g) 5 = 0 /\ nTs (tg s g) < nReq c g /\ cf (tg s g) 3 = 0 /\ duS (tg s g) = nTs (tg s g) /\ tpS (tg s g) = nTs (tg s g) + 1) by (clear - L X; openA; lia).
  destruct Y as (Y4 & Y5 & YN & Y3 & YD & YT).
  assert (G : match e with EvSend _ g | EvRecv _ g => g end = g) by (destruct IE as [<-|[<-|[]]]; reflexivity). rewrite G. cbv zeta.
  assert (PS : pS n g = nTs (tg s g)) by lia. assert (PR : pR n g = nTs (tg s g)) by lia. rewrite PS, PR, spec_steps_nReq.
  assert (OD : forall k, (k mod 2 =? 1) = Nat.odd k /\ (k mod 2 =? 0) = Nat.even k).
  { intros k. rewrite <- Nat.negb_even. destruct (Nat.even k) eqn:EV.
    - apply Nat.even_spec in EV as (j & ->). rewrite Nat.mul_comm, Nat.mod_mul by lia. auto.
    - assert (O : Nat.odd k = true) by (rewrite <- Nat.negb_even, EV; auto). apply Nat.odd_spec in O as (j & ->). replace (2 * j + 1) with (1 + j * 2) by lia. rewrite Nat.mod_add by lia. auto. }
  destruct (OD (nTs (tg s g))) as (O1 & O2). rewrite O1, O2 in *.
  split; [exact Hg|]. split; [|split; [lia|split; [reflexivity|split; [destruct IE as [<-|[<-|[]]]; reflexivity|split; [reflexivity|]]]]].
  - intros lt. split; [destruct (oS n lt g) eqn:O; auto; destruct (V3 lt O); lia|destruct (oR n lt g) eqn:O; auto; destruct (V4 lt O); lia].
  - intros w Hw. pose proof (I3 g 1 w Hg ltac:(lia) Hw) as K1. pose proof (I3 g 3 w Hg ltac:(lia) Hw) as K3. unfold APkg in K1, K3. rewrite X in K1. rewrite Y3 in K3. cbn in K1, K3.
    destruct K1 as (K1 & K1'). destruct K3 as (K3 & K3'). rewrite K1, K3, YT, YD. repeat split; try lia; intros Z; rewrite Z in *; destruct K1', K3'; discriminate.
Qed.

(** When the scheduler declares the synchronization point reached, one send and one receive have been posted per time step of every group, and all have completed. *)
Theorem C61_end c s n g : hreach c s n -> fin s = true -> g < nT c -> quiet n g /\ pS n g = spec_steps c g /\ pR n g = spec_steps c g.
Proof.
  intros R Hf Hg. destruct (areach_inv c s (hreach_areach _ _ _ R)) as (HI & HF1 & HF2 & HF3).
  pose proof (adone_AF _ _ _ HI Hg (HF2 Hf g Hg)) as (A1 & A2 & A3 & A4 & A5 & A6). destruct (hreach_inv c s n R g Hg) as (NS & NR & V3 & V4). unfold nPost in *.
  pose proof (A6 1 ltac:(lia)). pose proof (A6 4 ltac:(lia)). pose proof (A6 5 ltac:(lia)). rewrite spec_steps_nReq. split; [|lia].
  intros lt. split; [destruct (oS n lt g) eqn:O; auto; destruct (V3 lt O); lia|destruct (oR n lt g) eqn:O; auto; destruct (V4 lt O); lia].
Qed.

Print Assumptions C61_steps.
Print Assumptions C61_post.
Print Assumptions C61_end.

(** ** Examples: runs of the example of C07 in which the network completes everything at once *)
Definition hact (c : cfg) (sn : rst * net) (l : option label) : option (rst * net) :=
  match l with
  | None => Some sn
  | Some l => match astep c (fst sn) l with ANext s' ev => Some (s', fold_left post ev (snd sn)) | _ => None end
  end.
(** the network completes all messages of the example's groups *)
Definition compS lt g (n : net) : net := mkNet (set2 (oS n) lt g false) (oR n) (pS n) (pR n).
Definition compR lt g (n : net) : net := mkNet (oS n) (set2 (oR n) lt g false) (pS n) (pR n).
Definition flush (n : net) : net := fold_left (fun n g => compS true g (compS false g (compR true g (compR false g n)))) [0; 1; 2] n.
Definition answerb (c : cfg) (s : rst) (n : net) : bool :=
  match tested c s with Some (EvSend lt g) => negb (oS n lt g) | Some (EvRecv lt g) => negb (oR n lt g) | None => true end.
(** one block of the scheduler, then an action of every worker; the messages are completed at the beginning of a pass of the scheduler *)
Definition hsched (c : cfg) (sn : rst * net) : option (rst * net) :=
  let sn := (fst sn, if pc (fst sn) =? 0 then flush (snd sn) else snd sn) in hact c sn (Some (LSched (answerb c (fst sn) (snd sn)))).
Definition hround (c : cfg) (sn : rst * net) : option (rst * net) :=
  if fin (fst sn) then Some sn else
  fold_left (fun o w => match o with Some sn => hact c sn (worker_label c (fst sn) w) | None => None end) (seq 0 (nW c)) (hsched c sn).

Definition hr (c : cfg) (sn : rst * net) := hreach c (fst sn) (snd sn).
Lemma hact_reach c sn l sn' : hr c sn -> match l with Some l => answer_ok c (fst sn) (snd sn) l | None => True end -> hact c sn l = Some sn' -> hr c sn'.
Proof.
  intros R A. unfold hact. destruct l as [l|]; [|intros [= <-]; auto].
  destruct (astep c (fst sn) l) eqn:E; try discriminate. injection 1 as <-. unfold hr. cbn [fst snd]. eapply hreachS; eauto.
Qed.
Lemma flush_reach c s n : hreach c s n -> hreach c s (flush n).
Proof. intros R. unfold flush. cbn [fold_left]. repeat first [apply hreach_send|apply hreach_recv]. exact R. Qed.
Lemma answerb_ok c s n : answer_ok c s n (LSched (answerb c s n)).
Proof. unfold answer_ok. destruct (answerb c s n) eqn:E; auto. unfold answerb in E. destruct (tested c s) as [[lt g|lt g]|]; auto; now apply negb_true_iff in E. Qed.
Lemma hround_reach c sn sn' : hr c sn -> hround c sn = Some sn' -> hr c sn'.
Proof.
  unfold hround. intros R. destruct (fin (fst sn)); [congruence|].
  assert (G : forall l o sn', (forall s0, o = Some s0 -> hr c s0) ->
     fold_left (fun o w => match o with Some sn => hact c sn (worker_label c (fst sn) w) | None => None end) l o = Some sn' -> hr c sn').
  { induction l as [|w l IH]; cbn; intros o s0 H E; [auto|].
    eapply IH; [|exact E]. intros s1 E1. destruct o as [s2|]; [|discriminate].
    eapply hact_reach; [apply H; reflexivity| |exact E1]. unfold worker_label. destruct (cur (fst s2) w); cbn; auto. destruct (find_rdy c (fst s2) w) as [(? & ?)|]; cbn; auto. }
  apply G. intros s0. apply hact_reach; [|apply answerb_ok]. unfold hr. cbn [fst snd]. destruct (pc (fst sn) =? 0); [apply flush_reach|]; exact R.
Qed.
Fixpoint hsearch (P : rst * net -> bool) (c : cfg) (n : nat) (s : rst * net) : bool :=
  P s || match n with
         | 0 => false
         | S n => match hround c s with Some s' => hsearch P c n s' | None => false end
         end.
Lemma hsearch_reach P c n s : hr c s -> hsearch P c n s = true -> exists s', hr c s' /\ P s' = true.
Proof.
  revert s. induction n as [|n IH]; cbn [hsearch]; intros s R E; apply orb_prop in E as [E|E]; eauto; [discriminate|].
  destruct (hround c s) as [s1|] eqn:E1; [|discriminate]. eapply IH; [|exact E]. eapply hround_reach; eauto.
Qed.

Example C61_ex_end : exists s n, hreach ex_cfg s n /\ fin s = true /\ pS n 0 = 8 /\ pR n 1 = 4.
Proof.
  destruct (hsearch_reach (fun sn => fin (fst sn) && (pS (snd sn) 0 =? 8) && (pR (snd sn) 1 =? 4)) ex_cfg 3000 (ex_init, net0)) as ((s & n) & R & H); [apply hreach0|vm_compute; reflexivity|].
  exists s, n. cbn [fst snd] in H. gs. auto.
Qed.
(** a state in which a neighbouring update of the middle group is computed in its second step *)
Example C61_ex_neigh : exists s n, hreach ex_cfg s n /\ computing s 1 1 3 /\ pR n 1 = 2.
Proof.
  destruct (hsearch_reach (fun sn => match cur (fst sn) 1 with Busy g e => (g =? 1) && (e =? 3) | _ => false end && (pR (snd sn) 1 =? 2)) ex_cfg 3000 (ex_init, net0)) as ((s & n) & R & H); [apply hreach0|vm_compute; reflexivity|].
  exists s, n. cbn [fst snd] in H. apply andb_prop in H as [H H2]. apply Nat.eqb_eq in H2. split; [exact R|]. split; [|exact H2].
  unfold computing. destruct (cur s 1); try discriminate. gs. congruence.
Qed.
(** a state in which the messages of the second step of the smallest group are about to be posted *)
Example C61_ex_post : exists s n s' ev, hreach ex_cfg s n /\ astep ex_cfg s (LSched false) = ANext s' ev /\ In (EvSend true 0) ev /\ pS n 0 = 1.
Proof.
  destruct (hsearch_reach (fun sn => match astep ex_cfg (fst sn) (LSched false) with ANext _ (EvSend true 0 :: _) => true | _ => false end && (pS (snd sn) 0 =? 1)) ex_cfg 3000 (ex_init, net0)) as ((s & n) & R & H); [apply hreach0|vm_compute; reflexivity|].
  exists s, n. cbn [fst snd] in H. apply andb_prop in H as [H H2]. apply Nat.eqb_eq in H2. destruct (astep ex_cfg s (LSched false)) as [s' ev| |] eqn:E; try discriminate. exists s', ev. split; [exact R|]. split; [reflexivity|].
  destruct ev as [|[[|] [|]|] ev]; try discriminate. split; [left; reflexivity|exact H2].
Qed.
