(** Every execution of the schedulers, workers and messages of all ranks is an admissible schedule of the elements' steps. *)
From Verif Require Import MeshConn Sparse Lts Ader AderSpec AderEl AderElSpec AderLtsSpec EndSpec.
From Verif Require Import Util SchedModel SchedProofs SchedInv SchedReach DistModel DistProofs DistLive DistFair Props_Sched Props_Dist.
Local Open Scope nat_scope.

Section End.
Context {T : Type}.
Variables (cf : conf) (U : @setup T) (G : gcfg) (mesh : nat -> nat -> face) (lvl : nat -> nat) (cross : nat -> nat -> bool).
Variables (rankOf reg : nat -> nat) (pkL pkN : nat -> nat -> nat -> nat -> nat * nat) (chF : nat -> list (nat * nat)) (pts : nat -> nat -> nat -> nat -> list T).
Local Notation nFa := (nElFas (cEl cf)).
Local Notation nC := (length (gC G)).
Local Notation schedule := (@schedule T cf U mesh lvl cross).
Local Notation ready := (@ready T cf U mesh lvl cross).
Local Notation rel := (rel mesh lvl).
Local Notation filled := (filled mesh lvl).
Local Notation used := (used mesh lvl).
Hypothesis WF : wf G.
Hypothesis HD : distributed G (uN U) nFa mesh lvl cross rankOf reg pkL pkN chF.
Hypothesis HS : forall el fa ne v f, el < uN U -> fa < nFa -> mesh el fa = Inner ne v f -> ne < uN U /\ f < nFa /\ cross ne f = cross el fa /\ (lvl el <= S (lvl ne) /\ lvl ne <= S (lvl el)) /\ exists v', mesh ne f = Inner el v' fa.

Definition Rel (s : gst) (L N : nat -> nat) (Se R : nat -> nat -> nat) : Prop :=
  (forall r g e w el, r < gR G -> g < gT G -> e < 2 -> w < gW G r -> inPk (pkL r g e w) el -> L el = exe (rk s r) g e w) /\
  (forall r g e w el, r < gR G -> g < gT G -> e < 2 -> w < gW G r -> inPk (pkN r g e w) el -> N el = exe (rk s r) g (4 + e) w) /\
  (forall i el fa, i < nC -> In (el, fa) (chF i) -> Se el fa = sN (net s i) /\ forall ne v f, mesh el fa = Inner ne v f -> R ne f = rD (net s i)).

Lemma at_L s L N Se R el : Rel s L N Se R -> el < uN U -> exists w, w < gW G (rankOf el) /\ L el = exe (rk s (rankOf el)) (lvl el) (reg el) w.
Proof. intros (H & _) Hel. destruct HD as (D1 & (_ & D2) & _). destruct (D1 el Hel) as (A1 & A2 & A3). destruct (D2 el Hel) as (w & W1 & W2 & _). exists w. split; [exact W1|]. now apply H. Qed.
Lemma at_N s L N Se R el : Rel s L N Se R -> el < uN U -> exists w, w < gW G (rankOf el) /\ N el = exe (rk s (rankOf el)) (lvl el) (4 + reg el) w.
Proof. intros (_ & H & _) Hel. destruct HD as (D1 & _ & (_ & D2) & _). destruct (D1 el Hel) as (A1 & A2 & A3). destruct (D2 el Hel) as (w & W1 & W2 & _). exists w. split; [exact W1|]. now apply H. Qed.

(** number of executions of a package and the counters of its group *)
Lemma exe_cnt c s g e w : reach c s -> g < nT c -> e < 6 -> w < nW c -> cnt (tg s g) e <= exe s g e w /\ (SchedModel.cf (tg s g) e <> 1 -> exe s g e w = cnt (tg s g) e).
Proof.
  intros R Hg He Hw. destruct (reach_inv c s R) as ((_ & _ & I3 & _) & _). specialize (I3 g e w Hg He Hw). unfold PkgOk in I3.
  destruct (Nat.eqb_spec (SchedModel.cf (tg s g) e) 1) as [E|E].
  - split; [|congruence]. destruct (stat s g e w); lia.
  - destruct I3 as (X & _). split; [lia|auto].
Qed.
Lemma busy_cf c s w g e : reach c s -> cur s w = Busy g e -> w < nW c /\ g < nT c /\ e < 6 /\ SchedModel.cf (tg s g) e = 1.
Proof.
  intros R C. destruct (reach_inv c s R) as ((_ & _ & I3 & (_ & J2 & _) & _) & _). destruct (J2 _ _ _ C) as (S1 & H1 & H2 & H3). repeat (split; [assumption|]).
  specialize (I3 g e w H2 H3 H1). unfold PkgOk in I3. rewrite S1 in I3. destruct (Nat.eqb_spec (SchedModel.cf (tg s g) e) 1); [auto|]. destruct I3 as (_ & [?|?]); discriminate.
Qed.
Lemma cnt_du c s g e : reach c s -> g < nT c -> e < 2 -> nTs (tg s g) <= cnt (tg s g) (4 + e).
Proof. intros R Hg He. destruct (reach_inv c s R) as ((I1 & _) & _). pose proof (Loc_facts _ _ (I1 g Hg)) as F. destruct e as [|[|e]]; [| |lia]; cbn [cnt Nat.add]; lia. Qed.
(** adjacent groups *)
Lemma du_large c s g e e' w : reach c s -> cur s w = Busy g e -> e < 2 -> g + 1 < nT c -> e' < 2 -> Nat.even (nTs (tg s g)) = true -> nTs (tg s g) <= 2 * cnt (tg s (g + 1)) (4 + e').
Proof.
  intros R C He Hg He' Ev. destruct (reach_inv c s R) as ((I1 & I2 & _) & _). destruct (I2 g Hg) as (P1 & P2 & P3 & P4 & _). pose proof (cnt_du c s (g + 1) e' R Hg He').
  assert (nTs (tg s g) = 2 * nTs (tg s (g + 1)) + 2 -> cnt (tg s (g + 1)) (4 + e') = nTs (tg s (g + 1)) + 1). { intros E. destruct (P4 E). destruct e' as [|[|e']]; [assumption|assumption|lia]. }
  apply Nat.even_spec in Ev. destruct Ev as (m & Em). lia.
Qed.
Lemma du_small c s g e' : reach c s -> g + 1 < nT c -> e' < 2 -> 2 * nTs (tg s (g + 1)) <= cnt (tg s g) (4 + e').
Proof.
  intros R Hg He'. destruct (reach_inv c s R) as ((I1 & I2 & _) & _). destruct (I2 g Hg) as (P1 & P2 & P3 & P4 & _). pose proof (cnt_du c s g e' R ltac:(lia) He').
  assert (nTs (tg s g) + 1 = 2 * nTs (tg s (g + 1)) -> cnt (tg s g) (4 + e') = nTs (tg s g) + 1). { intros E. destruct (P3 E). destruct e' as [|[|e']]; [assumption|assumption|lia]. }
  lia.
Qed.
Lemma loc_send N t : Loc N t -> SchedModel.cf t 1 = 1 -> begun t = nTs t.
Proof. intros L C. assert (X : SchedModel.cf t 6 = 0 /\ nSe t = nTs t) by open_loc. destruct X as (X1 & X2). unfold begun. rewrite X1, X2. cbn. lia. Qed.
Lemma loc_recv N t : Loc N t -> SchedModel.cf t 7 = 1 -> nRe t <= duS t.
Proof. intros L C. open_loc; cbn in *; lia. Qed.

Lemma chan_of el fa ne v f : el < uN U -> fa < nFa -> mesh el fa = Inner ne v f -> cross el fa = true ->
  exists i, i < nC /\ In (el, fa) (chF i) /\ reg el = 1 /\ cS (ch G i) = rankOf el /\ cG (ch G i) = lvl el /\ cR (ch G i) = rankOf ne /\ cH (ch G i) = lvl ne.
Proof.
  intros Hel Hfa Em Ec. destruct HD as (_ & _ & _ & D4 & _ & _ & D6). specialize (D6 el fa ne v f Hel Hfa Em). rewrite Ec in D6. destruct D6 as (i & Hi & Hin). exists i. split; [exact Hi|]. split; [exact Hin|].
  destruct (D4 i el fa Hi Hin) as (_ & _ & _ & ne' & v' & f' & Em' & X). rewrite Em in Em'. injection Em' as <- <- <-. exact X.
Qed.

(** *** Steps of the workers *)
Lemma ready_local s L N Se R r w g e p : greach G s -> Rel s L N Se R -> r < gR G -> cur (rk s r) w = Busy g e -> e < 2 ->
  ready L N Se R (OLocal g (fst (pkL r g e w)) (snd (pkL r g e w)) (nTs (tg (rk s r) g)) p).
Proof.
  intros GR HR Hr C He. pose proof (greach_rank G s GR) as RR. destruct (busy_cf _ _ _ _ _ (RR r) C) as (Hw & Hg & _ & Ccf). cbn [rcfg nT nW] in Hw, Hg.
  destruct (C01_stage_order _ _ _ _ _ (RR r) C) as (_ & _ & _ & _ & Ex & Ord).
  destruct HD as (D1 & ((D2 & _) & _)). destruct (D2 r g e w Hr Hg He Hw) as (P1 & P2). split; [exact P1|]. intros el Hin. destruct (P2 el Hin) as (Er & Eg & Ee). split; [exact Eg|].
  assert (Hel : el < uN U) by (unfold inPk in Hin; lia).
  assert (EL : L el = nTs (tg (rk s r) g)). { rewrite <- Ex. now apply HR. }
  assert (EN : N el = nTs (tg (rk s r) g)).
  { destruct (at_N _ _ _ _ _ el HR Hel) as (w' & Hw' & ->). rewrite Er, Eg, Ee in *. destruct (Ord (4 + e) w' ltac:(lia) Hw') as (_ & X & _). apply X; [lia|]. destruct e as [|[|e]]; [reflexivity|reflexivity|lia]. }
  split; [congruence|]. split; [auto|]. intros fa ne v f Hfa Em. destruct (HS el fa ne v f Hel Hfa Em) as (Hne & Hf & _ & Hlv & _). destruct (cross el fa) eqn:Ec.
  - right. destruct (chan_of el fa ne v f Hel Hfa Em Ec) as (i & Hi & Hin' & Hreg & C1 & C2 & C3 & C4). destruct HR as (_ & _ & HR3). destruct (HR3 i el fa Hi Hin') as (-> & _).
    destruct (greach_ch G s WF GR i Hi) as ((Sn & _) & _). rewrite Sn, C1, C2, C4, Er, Eg. assert (e = 1) as -> by congruence.
    destruct (reach_inv _ _ (RR r)) as ((I1 & _) & _). rewrite (loc_send _ _ (I1 g Hg) Ccf). unfold AderLtsSpec.filled, AderLtsSpec.rel. rewrite Em, EL, Eg. destruct (Nat.compare_spec g (lvl ne)) as [E|E|E].
    + rewrite E, Nat.ltb_irrefl. apply le_n.
    + apply Nat.ltb_lt in E. rewrite E. apply le_n.
    + replace (g <? lvl ne) with false by (symmetry; apply Nat.ltb_ge; lia). apply le_n.
  - assert (Hrk : rankOf ne = r). { destruct HD as (_ & _ & _ & _ & _ & _ & D6). specialize (D6 el fa ne v f Hel Hfa Em). rewrite Ec in D6. congruence. }
    destruct (at_N _ _ _ _ _ ne HR Hne) as (w' & Hw' & ->). rewrite Hrk in *. destruct (D1 ne Hne) as (_ & Hgn & Hrn).
    destruct (exe_cnt _ _ (lvl ne) (4 + reg ne) w' (RR r) Hgn ltac:(lia) Hw') as (Xc & _). rewrite EL, Eg. destruct (Nat.compare_spec g (lvl ne)) as [E|E|E].
    + rewrite <- E in *. pose proof (cnt_du _ _ g (reg ne) (RR r) Hg Hrn). lia.
    + assert (E' : lvl ne = g + 1) by lia. rewrite E' in *. intros Ev. pose proof (du_large _ _ g e (reg ne) w (RR r) C He Hgn Hrn Ev). lia.
    + assert (E' : g = lvl ne + 1) by lia. pose proof (du_small _ _ (lvl ne) (reg ne) (RR r) ltac:(rewrite <- E'; exact Hg) Hrn). rewrite <- E' in H. lia.
Qed.

Lemma recv_window s i w : greach G s -> i < nC -> cur (rk s (cR (ch G i))) w = Busy (cH (ch G i)) 5 ->
  rD (net s i) = if cH (ch G i) <? cG (ch G i) then nTs (tg (rk s (cR (ch G i))) (cH (ch G i))) / 2 + 1 else nTs (tg (rk s (cR (ch G i))) (cH (ch G i))) + 1.
Proof.
  intros R Hi C. destruct (greach_ch G s WF R i Hi) as (_ & (HR1 & HR2) & (_ & HM2 & _)).
  pose proof (greach_rank G s R (cR (ch G i))) as RR. destruct (busy_cf _ _ _ _ _ RR C) as (K1 & K2 & _ & C5).
  destruct (reach_inv _ _ RR) as ((I1 & _) & _). set (c := ch G i) in *. set (g := cG c) in *. set (h := cH c) in *. set (t := tg (rk s (cR c)) h) in *.
  assert (LC : SchedModel.cf t 7 = 0 /\ nRe t = nTs t + 1). { pose proof (I1 h K2) as L. fold t in L. clear - L C5. open_loc. }
  destruct LC as [C7 NR]. assert (P : posted t = nTs t + 1). { unfold posted. rewrite C7, NR. cbn. lia. }
  assert (RA : rAct (net s i) = false). { destruct (rAct (net s i)) eqn:E; auto. destruct (HR2 eq_refl) as (_ & X & _). lia. }
  rewrite RA in HM2. rewrite P in HR1. replace (rD (net s i)) with (rN (net s i)) by lia. rewrite HR1. destruct (h <? g); auto.
  replace (nTs t + 1 + 1) with (nTs t + 1 * 2) by lia. apply Nat.div_add. lia.
Qed.

Lemma ready_neigh s L N Se R r w g e : greach G s -> Rel s L N Se R -> r < gR G -> cur (rk s r) w = Busy g (4 + e) -> e < 2 ->
  ready L N Se R (ONeigh g (fst (pkN r g e w)) (snd (pkN r g e w)) (nTs (tg (rk s r) g))).
Proof.
  intros GR HR Hr C He. pose proof (greach_rank G s GR) as RR. destruct (busy_cf _ _ _ _ _ (RR r) C) as (Hw & Hg & _ & Ccf). cbn [rcfg nT nW] in Hw, Hg.
  destruct (C01_stage_order _ _ _ _ _ (RR r) C) as (_ & _ & _ & _ & Ex & Ord).
  destruct HD as (D1 & _ & (D2 & _) & _). destruct (D2 r g e w Hr Hg He Hw) as (P1 & P2). split; [exact P1|]. intros el Hin. destruct (P2 el Hin) as (Er & Eg & Ee). split; [exact Eg|].
  assert (Hel : el < uN U) by (unfold inPk in Hin; lia).
  assert (EN : N el = nTs (tg (rk s r) g)). { rewrite <- Ex. now apply HR. }
  assert (EL : L el = S (nTs (tg (rk s r) g))).
  { destruct (at_L _ _ _ _ _ el HR Hel) as (w' & Hw' & ->). rewrite Er, Eg, Ee in *. destruct (Ord e w' ltac:(lia) Hw') as (_ & _ & X). rewrite X by lia. lia. }
  split; [congruence|]. split; [auto|]. intros fa ne v f Hfa Em. destruct (HS el fa ne v f Hel Hfa Em) as (Hne & Hf & Hcr & Hlv & v' & Em'). destruct (cross el fa) eqn:Ec.
  - destruct (chan_of ne f el v' fa Hne Hf Em' ltac:(congruence)) as (i & Hi & Hin' & _ & C1 & C2 & C3 & C4). destruct HR as (_ & _ & HR3). destruct (HR3 i ne f Hi Hin') as (_ & X). rewrite (X _ _ _ Em').
    destruct (chan_of el fa ne v f Hel Hfa Em Ec) as (_ & _ & _ & Hreg & _). assert (e = 1) as -> by congruence.
    rewrite (recv_window s i w GR Hi) by (rewrite C3, C4, Er, Eg; exact C). rewrite C2, C3, C4, Er, Eg, EN. unfold AderLtsSpec.rel. rewrite Em, Eg. set (n := nTs (tg (rk s r) g)).
    pose proof (Nat.div_mod n 2 ltac:(lia)) as DM. pose proof (Nat.mod_upper_bound n 2 ltac:(lia)). destruct (Nat.compare_spec g (lvl ne)) as [E|E|E].
    + rewrite E, Nat.ltb_irrefl. lia.
    + apply Nat.ltb_lt in E. rewrite E. revert DM. generalize (n / 2) as x. intros. lia.
    + replace (g <? lvl ne) with false by (symmetry; apply Nat.ltb_ge; lia). lia.
  - assert (Hrk : rankOf ne = r). { destruct HD as (_ & _ & _ & _ & _ & _ & D6). specialize (D6 el fa ne v f Hel Hfa Em). rewrite Ec in D6. congruence. }
    destruct (at_L _ _ _ _ _ ne HR Hne) as (w' & Hw' & ->). rewrite Hrk in *. destruct (D1 ne Hne) as (_ & Hgn & Hrn).
    destruct (neigh_window _ _ _ _ _ (RR r) C ltac:(lia) (lvl ne) Hgn) as (F0 & F1 & T0 & T1). { unfold adjacent. lia. }
    destruct (exe_cnt _ _ (lvl ne) (reg ne) w' (RR r) Hgn ltac:(lia) Hw') as (_ & Xc). rewrite Xc by (destruct (reg ne) as [|[|]]; [exact F0|exact F1|lia]).
    assert (Xt : cnt (tg (rk s r) (lvl ne)) (reg ne) = if lvl ne =? g then nTs (tg (rk s r) g) + 1 else if lvl ne <? g then 2 * (nTs (tg (rk s r) g) + 1) else nTs (tg (rk s r) g) / 2 + 1) by (destruct (reg ne) as [|[|]]; [exact T0|exact T1|lia]).
    rewrite Xt, EN, Eg. set (n := nTs (tg (rk s r) g)). pose proof (Nat.div_mod n 2 ltac:(lia)) as DM. pose proof (Nat.mod_upper_bound n 2 ltac:(lia)). destruct (Nat.compare_spec g (lvl ne)) as [E|E|E].
    + rewrite <- E, Nat.eqb_refl. lia.
    + replace (lvl ne =? g) with false by (symmetry; apply Nat.eqb_neq; lia). replace (lvl ne <? g) with false by (symmetry; apply Nat.ltb_ge; lia). revert DM. generalize (n / 2) as x. intros. lia.
    + replace (lvl ne =? g) with false by (symmetry; apply Nat.eqb_neq; lia). replace (lvl ne <? g) with true by (symmetry; apply Nat.ltb_lt; lia). lia.
Qed.

(** *** Sends and receives, face by face *)
Lemma bump2_in R el fa : bump2 R el fa el fa = S (R el fa).
Proof. unfold bump2. now rewrite !Nat.eqb_refl. Qed.
Lemma bump2_out R el fa el' fa' : (el', fa') <> (el, fa) -> bump2 R el fa el' fa' = R el' fa'.
Proof. intros N. unfold bump2. destruct (Nat.eqb_spec el' el) as [->|]; [|reflexivity]. destruct (Nat.eqb_spec fa' fa) as [->|]; [congruence|reflexivity]. Qed.

Lemma sends l : forall ops L N Se R, schedule ops L N Se R -> NoDup l -> (forall el fa, In (el, fa) l -> ready L N Se R (OSend el fa)) ->
  exists Se', schedule (ops ++ map (fun p => OSend (fst p) (snd p)) l) L N Se' R /\ forall el fa, (In (el, fa) l -> Se' el fa = S (Se el fa)) /\ (~ In (el, fa) l -> Se' el fa = Se el fa).
Proof.
  induction l as [|(el, fa) l IH]; intros ops L N Se R S ND HR.
  - exists Se. rewrite app_nil_r. split; [exact S|]. intros. split; [intros []|reflexivity].
  - inversion ND as [|? ? ND1 ND2]; subst. assert (S1 := Sch_send _ _ _ _ _ ops L N Se R el fa S (HR el fa (or_introl eq_refl))).
    destruct (IH _ L N (bump2 Se el fa) R S1 ND2) as (Se' & S' & H').
    { intros el' fa' Hin. destruct (HR el' fa' (or_intror Hin)) as (X1 & X2 & X3 & X4 & X5). do 4 (split; [assumption|]). rewrite bump2_out; [exact X5|]. intros E. rewrite E in Hin. contradiction. }
    exists Se'. split; [rewrite <- app_assoc in S'; exact S'|]. intros el' fa'. destruct (H' el' fa') as (H1 & H2). split.
    + intros [E|Hin].
      * injection E as <- <-. rewrite H2 by exact ND1. apply bump2_in.
      * rewrite H1 by exact Hin. f_equal. apply bump2_out. intros E. rewrite E in Hin. contradiction.
    + intros Hn. rewrite H2 by (intros X; apply Hn; now right). apply bump2_out. intros E. apply Hn. left. congruence.
Qed.
Lemma recvs l : forall ops L N Se R, schedule ops L N Se R -> NoDup l -> (forall el fa, In (el, fa) l -> ready L N Se R (ORecv el fa)) ->
  exists R', schedule (ops ++ map (fun p => ORecv (fst p) (snd p)) l) L N Se R' /\ forall el fa, (In (el, fa) l -> R' el fa = S (R el fa)) /\ (~ In (el, fa) l -> R' el fa = R el fa).
Proof.
  induction l as [|(el, fa) l IH]; intros ops L N Se R S ND HR.
  - exists R. rewrite app_nil_r. split; [exact S|]. intros. split; [intros []|reflexivity].
  - inversion ND as [|? ? ND1 ND2]; subst. assert (S1 := Sch_recv _ _ _ _ _ ops L N Se R el fa S (HR el fa (or_introl eq_refl))).
    destruct (IH _ L N Se (bump2 R el fa) S1 ND2) as (R' & S' & H').
    { intros el' fa' Hin. destruct (HR el' fa' (or_intror Hin)) as (X1 & X2 & X3 & ne & v & f & X4 & X5 & X6). do 3 (split; [assumption|]). exists ne, v, f. split; [exact X4|]. rewrite bump2_out; [split; assumption|]. intros E. rewrite E in Hin. contradiction. }
    exists R'. split; [rewrite <- app_assoc in S'; exact S'|]. intros el' fa'. destruct (H' el' fa') as (H1 & H2). split.
    + intros [E|Hin].
      * injection E as <- <-. rewrite H2 by exact ND1. apply bump2_in.
      * rewrite H1 by exact Hin. f_equal. apply bump2_out. intros E. rewrite E in Hin. contradiction.
    + intros Hn. rewrite H2 by (intros X; apply Hn; now right). apply bump2_out. intros E. apply Hn. left. congruence.
Qed.

Lemma map_flat {A B C} (f : B -> C) (g : A -> list B) l : flat_map (fun x => map f (g x)) l = map f (flat_map g l).
Proof. induction l as [|x l IH]; [reflexivity|]. cbn [flat_map]. now rewrite IH, map_app. Qed.
Lemma NoDup_app_ {A} (l l' : list A) : NoDup l -> NoDup l' -> (forall x, In x l -> In x l' -> False) -> NoDup (l ++ l').
Proof.
  induction l as [|x l IH]; intros N1 N2 D; [exact N2|]. inversion N1; subst. cbn. constructor.
  - rewrite in_app_iff. intros [?|?]; [contradiction|]. apply (D x); [now left|assumption].
  - apply IH; auto. intros y H H'. apply (D y); [now right|assumption].
Qed.
Lemma NoDup_flat {B} (g : nat -> list B) l : NoDup l -> (forall i, In i l -> NoDup (g i)) -> (forall i j x, In i l -> In j l -> In x (g i) -> In x (g j) -> i = j) -> NoDup (flat_map g l).
Proof.
  induction l as [|i l IH]; intros N H D; [constructor|]. inversion N; subst. cbn [flat_map]. apply NoDup_app_.
  - apply H. now left.
  - apply IH; auto. + intros. apply H. now right. + intros i' j x Hi Hj. apply D; now right.
  - intros x H1 H2'. apply in_flat_map in H2'. destruct H2' as (j & Hj & Hx). assert (i = j) by (apply (D i j x); [now left|now right|assumption|assumption]). subst. contradiction.
Qed.

Lemma ev_sends (r : nat) lt g : flat_map (fun i => if matchS (ch G i) r lt g then map (fun p => @OSend T (fst p) (snd p)) (chF i) else []) (seq 0 nC) =
  map (fun p => OSend (fst p) (snd p)) (flat_map (fun i => if matchS (ch G i) r lt g then chF i else []) (seq 0 nC)).
Proof. rewrite <- map_flat. apply flat_map_ext. intros i. now destruct (matchS _ _ _ _). Qed.
Lemma ev_nodup (r : nat) lt g : NoDup (flat_map (fun i => if matchS (ch G i) r lt g then chF i else []) (seq 0 nC)).
Proof.
  destruct HD as (_ & _ & _ & _ & D5 & D5' & _). apply NoDup_flat; [apply seq_NoDup| |].
  - intros i Hi. apply in_seq in Hi. destruct (matchS _ _ _ _); [apply D5; lia|constructor].
  - intros i j (el, fa) Hi Hj. apply in_seq in Hi. apply in_seq in Hj. destruct (matchS (ch G i) r lt g); [|intros []]. destruct (matchS (ch G j) r lt g); [|intros ? []]. intros. eapply D5'; eauto; lia.
Qed.
Lemma ev_in (r : nat) lt g i el fa : i < nC -> In (el, fa) (chF i) -> (In (el, fa) (flat_map (fun i => if matchS (ch G i) r lt g then chF i else []) (seq 0 nC)) <-> matchS (ch G i) r lt g = true).
Proof.
  intros Hi Hin. rewrite in_flat_map. split.
  - intros (j & Hj & Hx). apply in_seq in Hj. destruct (matchS (ch G j) r lt g) eqn:E; [|destruct Hx]. destruct HD as (_ & _ & _ & _ & _ & D5' & _). now rewrite (D5' i j el fa Hi ltac:(lia) Hin Hx).
  - intros E. exists i. split; [apply in_seq; lia|]. now rewrite E.
Qed.

Definition beh (p : nat * nat) : nat * nat := match mesh (fst p) (snd p) with Inner ne _ f => (ne, f) | _ => p end.
Lemma beh_spec i el fa : i < nC -> In (el, fa) (chF i) -> exists ne v f, mesh el fa = Inner ne v f /\ beh (el, fa) = (ne, f).
Proof. intros Hi Hin. destruct HD as (_ & _ & _ & D4 & _). destruct (D4 i el fa Hi Hin) as (_ & _ & _ & ne & v & f & Em & _). exists ne, v, f. split; [exact Em|]. unfold beh. cbn [fst snd]. now rewrite Em. Qed.
Lemma beh_inj i j p q : i < nC -> j < nC -> In p (chF i) -> In q (chF j) -> beh p = beh q -> p = q.
Proof.
  destruct p as (el, fa), q as (el', fa'). intros Hi Hj Hp Hq E. destruct (beh_spec i el fa Hi Hp) as (ne & v & f & Em & E1). destruct (beh_spec j el' fa' Hj Hq) as (ne' & v' & f' & Em' & E2). rewrite E1, E2 in E. injection E as <- <-.
  destruct HD as (_ & _ & _ & D4 & _). destruct (D4 i el fa Hi Hp) as (Hel & Hfa & _). destruct (D4 j el' fa' Hj Hq) as (Hel' & Hfa' & _).
  destruct (HS _ _ _ _ _ Hel Hfa Em) as (_ & _ & _ & _ & x & X). destruct (HS _ _ _ _ _ Hel' Hfa' Em') as (_ & _ & _ & _ & y & Y). rewrite X in Y. now injection Y as -> _ ->.
Qed.
Lemma te_recvs i : i < nC -> flat_map (@behind T mesh) (chF i) = map (fun p => ORecv (fst p) (snd p)) (map beh (chF i)).
Proof.
  intros Hi. assert (H : forall el fa, In (el, fa) (chF i) -> exists ne v f, mesh el fa = Inner ne v f /\ beh (el, fa) = (ne, f)) by (intros; now apply (beh_spec i)). revert H. generalize (chF i) as l. clear. induction l as [|(el, fa) l IH]; intros H; [reflexivity|].
  cbn [flat_map map]. rewrite IH by (intros; apply H; now right). destruct (H el fa (or_introl eq_refl)) as (ne & v & f & Em & ->). unfold behind. cbn [fst snd]. rewrite Em. reflexivity.
Qed.
Lemma te_nodup i : i < nC -> NoDup (map beh (chF i)).
Proof.
  intros Hi. destruct HD as (_ & _ & _ & _ & D5 & _). specialize (D5 i Hi). assert (H : forall p q, In p (chF i) -> In q (chF i) -> beh p = beh q -> p = q) by (intros p q Hp Hq; now apply (beh_inj i i)). revert D5 H. generalize (chF i) as l. clear.
  induction l as [|p l IH]; intros N H; [constructor|]. inversion N; subst. cbn [map]. constructor.
  - intros X. apply in_map_iff in X. destruct X as (q & E & Hq). assert (q = p) by (apply H; [now right|now left|exact E]). subst. contradiction.
  - apply IH; auto. intros q q' Hq Hq'. apply H; now right.
Qed.

(** *** One step *)
Lemma ready_send s L N Se R r lt g i el fa : greach G s -> Rel s L N Se R -> i < nC -> In (el, fa) (chF i) -> matchS (ch G i) r lt g = true ->
  SchedModel.cf (tg (rk s r) g) 1 = 2 -> SchedModel.cf (tg (rk s r) g) 6 = 0 -> lt = (nSe (tg (rk s r) g) mod 2 =? 1) -> ready L N Se R (OSend el fa).
Proof.
  intros GR HR Hi Hin M C1 C6 ->. pose proof (greach_rank G s GR) as RR. destruct HD as (D1 & _ & _ & D4 & _). destruct (D4 i el fa Hi Hin) as (Hel & Hfa & Hcr & ne & v & f & Em & Hreg & X1 & X2 & X3 & X4).
  unfold matchS in M. apply andb_prop in M as [M0 M]. apply andb_prop in M as [M1 M2]. apply Nat.eqb_eq in M0, M1. rewrite X1 in M0. rewrite X2 in M1. destruct (D1 el Hel) as (_ & Hg & _).
  split; [exact Hel|]. split; [exact Hfa|]. split; [exact Hcr|]. split; [eauto|]. pose proof HR as (_ & _ & HR3). destruct (HR3 i el fa Hi Hin) as (-> & _).
  destruct (greach_ch G s WF GR i Hi) as ((Sn & _) & _). rewrite Sn, X1, X2, X4. destruct (at_L _ _ _ _ _ el HR Hel) as (w & Hw & EL). rewrite M0, M1 in *. rewrite Hreg in EL.
  destruct (reach_inv _ _ (RR r)) as ((I1 & _) & _). assert (LN : tpS (tg (rk s r) g) = S (nTs (tg (rk s r) g)) /\ nSe (tg (rk s r) g) = nTs (tg (rk s r) g)). { pose proof (I1 g Hg) as L0. clear - L0 C1 C6. open_loc. }
  destruct LN as (LN1 & LN2). destruct (exe_cnt _ _ g 1 w (RR r) Hg ltac:(lia) Hw) as (_ & Xc). rewrite Xc in EL by lia. cbn [cnt] in EL. rewrite LN1 in EL.
  unfold begun. rewrite C6. cbn [is1 Nat.eqb]. rewrite LN2 in *. rewrite Nat.add_0_r. unfold AderLtsSpec.filled, AderLtsSpec.rel. rewrite Em, EL, M1. rewrite X2, X4 in M2. destruct (Nat.compare_spec g (lvl ne)) as [E|E|E].
  - rewrite E, Nat.ltb_irrefl. lia.
  - apply Nat.ltb_lt in E. rewrite E in *. apply Nat.eqb_eq in M2. replace (S (nTs (tg (rk s r) g))) with (nTs (tg (rk s r) g) + 1) by lia. rewrite half_S_odd by exact M2. lia.
  - replace (g <? lvl ne) with false by (symmetry; apply Nat.ltb_ge; lia). lia.
Qed.

Lemma ready_recv s L N Se R i el fa : greach G s -> Rel s L N Se R -> i < nC -> In (el, fa) (chF i) -> rAct (net s i) = true -> rD (net s i) < sN (net s i) ->
  ready L N Se R (ORecv (fst (beh (el, fa))) (snd (beh (el, fa)))).
Proof.
  intros GR HR Hi Hin RA HL. pose proof (greach_rank G s GR) as RR. destruct HD as (D1 & _ & _ & D4 & _). destruct (D4 i el fa Hi Hin) as (Hel & Hfa & Hcr & ne & v & f & Em & Hreg & X1 & X2 & X3 & X4).
  unfold beh. cbn [fst snd]. rewrite Em. cbn [fst snd]. destruct (HS _ _ _ _ _ Hel Hfa Em) as (Hne & Hf & Hcr' & Hlv & v' & Em'). pose proof HR as (_ & _ & HR3). destruct (HR3 i el fa Hi Hin) as (HSe & HRe). specialize (HRe _ _ _ Em).
  split; [exact Hne|]. split; [exact Hf|]. split; [congruence|]. exists el, v', fa. split; [exact Em'|]. rewrite HSe, HRe. split; [exact HL|].
  destruct (greach_ch G s WF GR i Hi) as (_ & (HR1 & HR2) & (_ & HM2 & _)). destruct (HR2 RA) as (_ & C7 & Ev). rewrite RA in HM2. rewrite X2, X3, X4 in *. destruct (D1 ne Hne) as (_ & Hg & _).
  destruct (at_N _ _ _ _ _ ne HR Hne) as (w & Hw & EN). destruct (chan_of ne f el v' fa Hne Hf Em' ltac:(congruence)) as (_ & _ & _ & Hreg' & _). rewrite Hreg' in EN. cbn [Nat.add] in EN.
  destruct (exe_cnt _ _ (lvl ne) 5 w (RR (rankOf ne)) Hg ltac:(lia) Hw) as (Xc & _). cbn [cnt] in Xc. destruct (reach_inv _ _ (RR (rankOf ne))) as ((I1 & _) & _). pose proof (loc_recv _ _ (I1 _ Hg) C7) as Hdu.
  unfold posted in HR1. rewrite C7 in HR1. cbn [is1 Nat.eqb] in HR1. unfold AderLtsSpec.used, AderLtsSpec.rel. rewrite Em', EN. destruct (Nat.compare_spec (lvl ne) (lvl el)) as [E|E|E].
  - replace (lvl ne <? lvl el) with false in HR1 by (symmetry; apply Nat.ltb_ge; lia). lia.
  - specialize (Ev E). apply Nat.ltb_lt in E. rewrite E in HR1. replace (nRe (tg (rk s (rankOf ne)) (lvl ne)) + 1 + 1) with (nRe (tg (rk s (rankOf ne)) (lvl ne)) + 1 * 2) in HR1 by lia. rewrite Nat.div_add in HR1 by lia.
    apply Nat.le_trans with (nRe (tg (rk s (rankOf ne)) (lvl ne)) / 2).
    + revert HR1 HM2. generalize (nRe (tg (rk s (rankOf ne)) (lvl ne)) / 2) as x. clear. intros. lia.
    + apply Nat.div_le_mono; [discriminate|]. clear - Hdu Xc. lia.
  - replace (lvl ne <? lvl el) with false in HR1 by (symmetry; apply Nat.ltb_ge; lia). lia.
Qed.

Lemma sched_frame c mpi s s' ev : sched_step c mpi s = Next s' ev -> exe s' = exe s.
Proof.
  unfold sched_step. destruct (fin s); [discriminate|]. destruct (nth_error (prog c) (pc s)) as [[g b| |]|]; try discriminate; [|intros E; now injection E as <- <-..].
  destruct (run_blk c mpi s g b) as [s1 ev1| |] eqn:EB; try discriminate. intros E. injection E as <- <-. cbn [exe set_pc].
  destruct b; unfold run_blk, set_rdy in EB; repeat match type of EB with (if ?x then _ else _) = _ => destruct x end; try discriminate; now injection EB as <- <-.
Qed.
Lemma sched_send G' r c mpi s s' lt g : rcfg G' r = c -> reach c s -> sched_step c mpi s = Next s' (Some (EvSend lt g)) ->
  SchedModel.cf (tg s g) 1 = 2 /\ SchedModel.cf (tg s g) 6 = 0 /\ lt = (nSe (tg s g) mod 2 =? 1).
Proof.
  intros _ R. destruct (reach_inv c s R) as (HI & _). unfold sched_step. destruct (fin s); [discriminate|]. destruct (nth_error (prog c) (pc s)) as [[g0 b| |]|] eqn:Epc; try discriminate.
  destruct (run_blk c mpi s g0 b) as [s1 ev1| |] eqn:EB; try discriminate. intros E. injection E as <- ->.
  destruct b; unfold run_blk, set_rdy, cfe in EB; repeat match type of EB with (if ?x then _ else _) = _ => let X := fresh "X" in destruct x eqn:X end; try discriminate; injection EB as _ <- <-.
  apply andb_prop in X as [X1 X2]. apply Nat.eqb_eq in X1, X2. auto.
Qed.

Lemma step_ok s l s' ops L N Se R : greach G s -> gstep G s l = GNext s' -> Rel s L N Se R -> schedule ops L N Se R ->
  exists L' N' Se' R', schedule (ops ++ opsOf G mesh pkL pkN chF pts s l) L' N' Se' R' /\ Rel s' L' N' Se' R'.
Proof.
  intros GR E HR HSc. pose proof (greach_rank G s GR) as RR. destruct HR as (R1 & R2 & R3). assert (HR : Rel s L N Se R) by (repeat split; assumption || now apply R3).
  destruct l as [r|r l|i|i]; cbn [gstep] in E; unfold opsOf.
  - destruct (Nat.ltb_spec r (gR G)) as [Hr|]; [|discriminate]. unfold rank_step in E. destruct (rstep (rcfg G r) (rk s r) (LSched (mpi_answer G s r))) as [s1 ev| |] eqn:ER; try discriminate. injection E as <-. cbn [rstep] in ER.
    assert (EX := sched_frame _ _ _ _ _ ER).
    assert (K1 : forall r0, exe (fset (rk s) r s1 r0) = exe (rk s r0)) by (intros r0; destruct (Nat.eq_dec r0 r) as [->|]; [rewrite fset_eq; exact EX|now rewrite fset_ne by auto]).
    destruct ev as [[lt g|lt g]|].
    + destruct (sched_send G r _ _ _ _ _ _ eq_refl (RR r) ER) as (C1 & C6 & Elt). rewrite ev_sends. destruct (sends _ ops L N Se R HSc (ev_nodup r lt g)) as (Se' & S' & H').
      { intros el fa Hin. apply in_flat_map in Hin. destruct Hin as (i & Hi & Hin). apply in_seq in Hi. destruct (matchS (ch G i) r lt g) eqn:M; [|destruct Hin]. eapply ready_send; eauto. lia. }
      exists L, N, Se', R. split; [exact S'|]. split; [|split].
      * intros. cbn [rk]. rewrite K1. auto.
      * intros. cbn [rk]. rewrite K1. auto.
      * intros i el fa Hi Hin. cbn [net apply_ev]. destruct (H' el fa) as (H1 & H2). destruct (R3 i el fa Hi Hin) as (X1 & X2). destruct (matchS (ch G i) r lt g) eqn:M.
        -- cbn [beginSend sN rD]. split; [|exact X2]. rewrite H1 by (now apply (ev_in r lt g i)). now f_equal.
        -- split; [|exact X2]. rewrite H2; [exact X1|]. intros X. apply (ev_in r lt g i) in X; [congruence|exact Hi|exact Hin].
    + exists L, N, Se, R. rewrite app_nil_r. split; [exact HSc|]. split; [|split].
      * intros. cbn [rk]. rewrite K1. auto.
      * intros. cbn [rk]. rewrite K1. auto.
      * intros i el fa Hi Hin. cbn [net apply_ev]. destruct (R3 i el fa Hi Hin) as (X1 & X2). destruct (matchR _ _ _ _); [cbn [beginRecv sN rD]|]; split; assumption.
    + exists L, N, Se, R. rewrite app_nil_r. split; [exact HSc|]. split; [|split].
      * intros. cbn [rk]. rewrite K1. auto.
      * intros. cbn [rk]. rewrite K1. auto.
      * intros i el fa Hi Hin. cbn [net apply_ev]. now apply R3.
  - assert (K : forall w g e, l = LGet w g e \/ l = LStart w -> exists L' N' Se' R', schedule (ops ++ []) L' N' Se' R' /\ Rel s' L' N' Se' R').
    { intros w g e Hl. exists L, N, Se, R. rewrite app_nil_r. split; [exact HSc|].
      assert (E' : r < gR G /\ exists s1, rank_step G s r l = GNext s' /\ rstep (rcfg G r) (rk s r) l = Next s1 None /\ exe s1 = exe (rk s r) /\ s' = mkGst (fset (rk s) r s1) (net s)).
      { destruct Hl as [-> | ->]; (destruct (Nat.ltb_spec r (gR G)) as [Hr|]; [|discriminate]); (split; [exact Hr|]); unfold rank_step in E |- *; destruct (rstep (rcfg G r) (rk s r) _) as [s1 ev| |] eqn:ER; try discriminate;
          (assert (FR := work_frame _ _ _ _ _ ER ltac:(discriminate)); destruct FR as (_ & ->)); injection E as <-; exists s1; (split; [reflexivity|]); (split; [reflexivity|]); (split; [|reflexivity]); cbn [rstep] in ER.
        - unfold get_step in ER. destruct (negb _); [discriminate|]. destruct (cur _ w); try discriminate. destruct (status_eqb _ _); [|discriminate]. now injection ER as <-.
        - unfold start_step in ER. destruct (cur _ w); try discriminate. destruct (negb _); [discriminate|]. now injection ER as <-. }
      destruct E' as (Hr & s1 & _ & _ & EX & ->). assert (K1 : forall r0, exe (fset (rk s) r s1 r0) = exe (rk s r0)) by (intros r0; destruct (Nat.eq_dec r0 r) as [->|]; [rewrite fset_eq; exact EX|now rewrite fset_ne by auto]).
      split; [|split]; [intros; cbn [rk]; rewrite K1; auto|intros; cbn [rk]; rewrite K1; auto|exact R3]. }
    destruct l as [mpi|w g e|w|w]; [discriminate|apply (K w g e); auto|apply (K w 0 0); auto|]. clear K.
    destruct (Nat.ltb_spec r (gR G)) as [Hr|]; [|discriminate]. unfold rank_step in E. cbn [rstep] in E. unfold done_step in E. destruct (cur (rk s r) w) as [|g e|g e] eqn:C; try discriminate.
    destruct (negb _); [discriminate|]. injection E as <-. cbn [apply_ev].
    destruct (busy_cf _ _ _ _ _ (RR r) C) as (Hw & Hg & He & _). cbn [rcfg nT nW] in Hw, Hg.
    set (s1 := mkRst _ _ _ _ _ _ _ _ _).
    assert (K1 : forall r0 g0 e0 w0, exe (fset (rk s) r s1 r0) g0 e0 w0 = if (r0 =? r) && (g0 =? g) && (e0 =? e) && (w0 =? w) then S (exe (rk s r) g e w) else exe (rk s r0) g0 e0 w0).
    { intros r0 g0 e0 w0. destruct (Nat.eqb_spec r0 r) as [->|]; [rewrite fset_eq|rewrite fset_ne by auto; reflexivity]. reflexivity. }
    clearbody s1. destruct (Nat.ltb_spec e 2) as [He2|He2].
    + pose proof (ready_local s L N Se R r w g e (pts r g (nTs (tg (rk s r) g))) GR HR Hr C He2) as RD. exists (bump L (fst (pkL r g e w)) (snd (pkL r g e w))), N, Se, R. split; [now apply Sch_local|].
      split; [|split]; cbn [rk net].
      * intros r0 g0 e0 w0 el Hr0 Hg0 He0 Hw0 Hin. rewrite K1. unfold bump. destruct HD as (_ & (D2 & D3) & _). destruct (D2 r0 g0 e0 w0 Hr0 Hg0 He0 Hw0) as (Q1 & Q2). destruct (Q2 el Hin) as (Y1 & Y2 & Y3).
        destruct ((fst (pkL r g e w) <=? el) && (el <? fst (pkL r g e w) + snd (pkL r g e w))) eqn:B.
        -- apply andb_prop in B as [B1 B2]. apply Nat.leb_le in B1. apply Nat.ltb_lt in B2. assert (Hin' : inPk (pkL r g e w) el) by (split; assumption).
           destruct (D2 r g e w Hr Hg He2 Hw) as (_ & Q3). destruct (Q3 el Hin') as (Z1 & Z2 & Z3). assert (Hel : el < uN U) by (unfold inPk in Hin; lia). destruct (D3 el Hel) as (w2 & _ & _ & U2).
           assert (w0 = w2) by (apply U2; [now rewrite Y1|now rewrite Y1, Y2, Y3]). assert (w = w2) by (apply U2; [now rewrite Z1|now rewrite Z1, Z2, Z3]).
           subst w2. rewrite (R1 r g e w el Hr Hg He2 Hw Hin'). replace r0 with r by congruence. replace g0 with g by congruence. replace e0 with e by congruence. replace w0 with w by congruence. now rewrite !Nat.eqb_refl.
        -- rewrite (R1 r0 g0 e0 w0 el Hr0 Hg0 He0 Hw0 Hin). destruct (Nat.eqb_spec r0 r) as [->|]; [|reflexivity]. destruct (Nat.eqb_spec g0 g) as [->|]; [|reflexivity]. destruct (Nat.eqb_spec e0 e) as [->|]; [|reflexivity]. destruct (Nat.eqb_spec w0 w) as [->|]; [|reflexivity].
           exfalso. destruct Hin as (B1 & B2). apply Nat.leb_le in B1. apply Nat.ltb_lt in B2. rewrite B1, B2 in B. discriminate.
      * intros r0 g0 e0 w0 el Hr0 Hg0 He0 Hw0 Hin. rewrite K1. replace (4 + e0 =? e) with false by (symmetry; apply Nat.eqb_neq; lia). rewrite andb_false_r. cbn [andb]. auto.
      * exact R3.
    + assert (K2 : exists L' N' Se' R', schedule (ops ++ (if 4 <=? e then [ONeigh g (fst (pkN r g (e - 4) w)) (snd (pkN r g (e - 4) w)) (nTs (tg (rk s r) g))] else [])) L' N' Se' R' /\ Rel (mkGst (fset (rk s) r s1) (net s)) L' N' Se' R'); [|exact K2].
      destruct (Nat.leb_spec 4 e) as [He4|He4].
      * assert (Ee : e = 4 + (e - 4)) by lia. assert (He' : e - 4 < 2) by lia. set (e1 := e - 4) in *. rewrite Ee in C.
        pose proof (ready_neigh s L N Se R r w g e1 GR HR Hr C He') as RD. exists L, (bump N (fst (pkN r g e1 w)) (snd (pkN r g e1 w))), Se, R. split; [now apply Sch_neigh|].
        split; [|split]; cbn [rk net].
        -- intros r0 g0 e0 w0 el Hr0 Hg0 He0 Hw0 Hin. rewrite K1. replace (e0 =? e) with false by (symmetry; apply Nat.eqb_neq; lia). rewrite andb_false_r. cbn [andb]. auto.
        -- intros r0 g0 e0 w0 el Hr0 Hg0 He0 Hw0 Hin. rewrite K1. unfold bump. destruct HD as (_ & _ & (D2 & D3) & _). destruct (D2 r0 g0 e0 w0 Hr0 Hg0 He0 Hw0) as (Q1 & Q2). destruct (Q2 el Hin) as (Y1 & Y2 & Y3).
          destruct ((fst (pkN r g e1 w) <=? el) && (el <? fst (pkN r g e1 w) + snd (pkN r g e1 w))) eqn:B.
          ++ apply andb_prop in B as [B1 B2]. apply Nat.leb_le in B1. apply Nat.ltb_lt in B2. assert (Hin' : inPk (pkN r g e1 w) el) by (split; assumption).
             destruct (D2 r g e1 w Hr Hg He' Hw) as (_ & Q3). destruct (Q3 el Hin') as (Z1 & Z2 & Z3). assert (Hel : el < uN U) by (unfold inPk in Hin; lia). destruct (D3 el Hel) as (w2 & _ & _ & U2).
             assert (w0 = w2) by (apply U2; [now rewrite Y1|now rewrite Y1, Y2, Y3]). assert (w = w2) by (apply U2; [now rewrite Z1|now rewrite Z1, Z2, Z3]).
             subst w2. rewrite (R2 r g e1 w el Hr Hg He' Hw Hin'). replace r0 with r by congruence. replace g0 with g by congruence. replace (4 + e0) with e by (rewrite Ee; congruence). replace w0 with w by congruence. rewrite !Nat.eqb_refl. cbn [andb]. now rewrite <- Ee.
          ++ rewrite (R2 r0 g0 e0 w0 el Hr0 Hg0 He0 Hw0 Hin). destruct (Nat.eqb_spec r0 r) as [->|]; [|reflexivity]. destruct (Nat.eqb_spec g0 g) as [->|]; [|reflexivity]. destruct (Nat.eqb_spec (4 + e0) e) as [X|]; [|reflexivity]. destruct (Nat.eqb_spec w0 w) as [->|]; [|reflexivity].
             exfalso. assert (e0 = e1) as -> by lia. destruct Hin as (B1 & B2). apply Nat.leb_le in B1. apply Nat.ltb_lt in B2. rewrite B1, B2 in B. discriminate.
        -- exact R3.
      * exists L, N, Se, R. rewrite app_nil_r. split; [exact HSc|]. split; [|split]; cbn [rk net].
        -- intros r0 g0 e0 w0 el Hr0 Hg0 He0 Hw0 Hin. rewrite K1. replace (e0 =? e) with false by (symmetry; apply Nat.eqb_neq; lia). rewrite andb_false_r. cbn [andb]. auto.
        -- intros r0 g0 e0 w0 el Hr0 Hg0 He0 Hw0 Hin. rewrite K1. replace (4 + e0 =? e) with false by (symmetry; apply Nat.eqb_neq; lia). rewrite andb_false_r. cbn [andb]. auto.
        -- exact R3.
  - destruct (Nat.ltb_spec i nC) as [Hi|]; [|discriminate]. injection E as <-. exists L, N, Se, R. rewrite app_nil_r. split; [exact HSc|]. split; [exact R1|]. split; [exact R2|].
    intros j el fa Hj Hin. cbn [net]. destruct (Nat.eq_dec j i) as [->|]; [rewrite fset_eq|rewrite fset_ne by auto]; now apply R3.
  - destruct (Nat.ltb_spec i nC) as [Hi|]; [|discriminate]. unfold testRecv in E. destruct (rAct (net s i)) eqn:RA.
    + destruct (Nat.ltb_spec (rD (net s i)) (sN (net s i))) as [HL|]; [|discriminate]. injection E as <-. rewrite te_recvs by exact Hi.
      destruct (recvs _ ops L N Se R HSc (te_nodup i Hi)) as (R' & S' & H').
      { intros ne f Hin. apply in_map_iff in Hin. destruct Hin as ((el, fa) & E & Hin). pose proof (ready_recv s L N Se R i el fa GR HR Hi Hin RA HL) as X. now rewrite E in X. }
      exists L, N, Se, R'. split; [exact S'|]. split; [exact R1|]. split; [exact R2|]. intros j el fa Hj Hin. cbn [net]. destruct (R3 j el fa Hj Hin) as (X1 & X2).
      destruct (beh_spec j el fa Hj Hin) as (ne & v & f & Em & Eb). destruct (H' ne f) as (H1 & H2). destruct (Nat.eq_dec j i) as [->|Nji].
      * rewrite fset_eq; cbn [sN rD]. split; [exact X1|]. intros ne' v' f' Em'. rewrite Em in Em'. injection Em' as <- <- <-. rewrite H1; [now rewrite (X2 _ _ _ Em)|]. rewrite <- Eb. now apply in_map.
      * rewrite fset_ne by auto. split; [exact X1|]. intros ne' v' f' Em'. rewrite Em in Em'. injection Em' as <- <- <-. rewrite H2; [now apply (X2 _ _ _ Em)|]. intros X. apply in_map_iff in X. destruct X as (q & Eq & Hq). rewrite <- Eb in Eq.
        apply (beh_inj i j) in Eq; [|assumption..]. subst q. destruct HD as (_ & _ & _ & _ & _ & D5' & _). apply Nji. symmetry. eapply D5'; eauto.
    + injection E as <-. exists L, N, Se, R. rewrite app_nil_r. split; [exact HSc|]. split; [exact R1|]. split; [exact R2|].
      intros j el fa Hj Hin. cbn [net]. destruct (Nat.eq_dec j i) as [->|]; [rewrite fset_eq|rewrite fset_ne by auto]; now apply R3.
Qed.

Lemma exec_ok st la j : execution G st la -> exists L N Se R, schedule (opsUpTo G mesh pkL pkN chF pts st la j) L N Se R /\ Rel (st j) L N Se R.
Proof.
  intros EX. pose proof (exec_greach G st la EX) as GR. destruct EX as ((b0 & sb0 & sT & rT & rb & E0) & ES). induction j as [|j IH].
  - exists (fun _ => 0), (fun _ => 0), (fun _ _ => 0), (fun _ _ => 0). split; [constructor|]. rewrite E0. repeat split; reflexivity.
  - destruct IH as (L & N & Se & R & S & HR). cbn [opsUpTo]. specialize (ES j). destruct (la j) as [l|].
    + eapply step_ok; eauto.
    + exists L, N, Se, R. rewrite app_nil_r, ES. split; assumption.
Qed.

(** at the end of an interval all messages have arrived *)
Lemma fin_counts s L N Se R : greach G s -> (forall r, r < gR G -> fin (rk s r) = true) -> Rel s L N Se R ->
  (forall el, el < uN U -> L el = spec_steps (rcfg G 0) (lvl el) /\ N el = spec_steps (rcfg G 0) (lvl el)) /\
  forall el fa ne v f, el < uN U -> fa < nFa -> mesh el fa = Inner ne v f -> cross el fa = true -> Se el fa = R ne f.
Proof.
  intros GR HF HR. pose proof (greach_rank G s GR) as RR. destruct HD as (D1 & _).
  assert (SP : forall r g, spec_steps (rcfg G r) g = spec_steps (rcfg G 0) g) by reflexivity. split.
  - intros el Hel. destruct (D1 el Hel) as (H1 & H2 & H3). destruct (C01_exact_updates _ _ (RR (rankOf el)) (HF _ H1) (lvl el) H2) as (_ & _ & _ & X). rewrite SP in X.
    destruct (at_L _ _ _ _ _ el HR Hel) as (w & Hw & ->). destruct (at_N _ _ _ _ _ el HR Hel) as (w' & Hw' & ->). split; [now apply X; [lia|]|now apply X; [lia|]].
  - intros el fa ne v f Hel Hfa Em Ec. destruct (chan_of el fa ne v f Hel Hfa Em Ec) as (i & Hi & Hin & _ & C1 & C2 & C3 & C4). destruct HR as (_ & _ & R3). destruct (R3 i el fa Hi Hin) as (-> & X). rewrite (X _ _ _ Em).
    destruct (greach_ch G s WF GR i Hi) as ((Sn & _) & (HR1 & HR2) & (_ & HM2 & _)). rewrite C1, C2, C3, C4 in *. destruct (D1 el Hel) as (H1 & H2 & _). destruct (HS _ _ _ _ _ Hel Hfa Em) as (Hne & _ & _ & Hlv & _). destruct (D1 ne Hne) as (H1' & H2' & _).
    destruct (reach_inv _ _ (RR (rankOf el))) as ((I1 & _) & _ & F1 & _). destruct (reach_inv _ _ (RR (rankOf ne))) as ((I1' & _) & _ & F1' & _).
    destruct (done_facts _ _ (I1 (lvl el) H2) (F1 (HF _ H1) (lvl el) H2)) as (_ & _ & _ & _ & _ & _ & S6 & _ & _ & S7 & _).
    destruct (done_facts _ _ (I1' (lvl ne) H2') (F1' (HF _ H1') (lvl ne) H2')) as (_ & _ & _ & _ & _ & _ & _ & T7 & _ & _ & T8 & _).
    assert (RA : rAct (net s i) = false). { destruct (rAct (net s i)) eqn:E; auto. destruct (HR2 eq_refl) as (_ & Y & _). lia. }
    rewrite RA in HM2. replace (rD (net s i)) with (rN (net s i)) by lia. rewrite Sn, HR1. unfold begun, posted. rewrite S6, S7, T7, T8. cbn [is1 Nat.eqb]. rewrite !Nat.add_0_r.
    change (nReq (rcfg G (rankOf el)) (lvl el)) with (nReq (rcfg G 0) (lvl el)). change (nReq (rcfg G (rankOf ne)) (lvl ne)) with (nReq (rcfg G 0) (lvl ne)).
    destruct (Nat.compare_spec (lvl el) (lvl ne)) as [E|E|E].
    + rewrite E, Nat.ltb_irrefl. reflexivity.
    + assert (E' : lvl ne = lvl el + 1) by lia. replace (lvl el <? lvl ne) with true by (symmetry; apply Nat.ltb_lt; lia). replace (lvl ne <? lvl el) with false by (symmetry; apply Nat.ltb_ge; lia).
      rewrite (nReq_half (rcfg G 0) (lvl el)) by (rewrite <- E'; exact H2'). rewrite <- E', Nat.mul_comm. apply Nat.div_mul. lia.
    + assert (E' : lvl el = lvl ne + 1) by lia. replace (lvl ne <? lvl el) with true by (symmetry; apply Nat.ltb_lt; lia). replace (lvl el <? lvl ne) with false by (symmetry; apply Nat.ltb_ge; lia).
      rewrite (nReq_half (rcfg G 0) (lvl ne)) by (rewrite <- E'; exact H2). rewrite <- E'. symmetry. replace (2 * nReq (rcfg G 0) (lvl el) + 1) with (1 + nReq (rcfg G 0) (lvl el) * 2) by lia. rewrite Nat.div_add by lia. reflexivity.
Qed.
End End.
