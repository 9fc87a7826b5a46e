(** Properties of the communication structure of the preprocessor: C28, C29, C49. *)
From Coq Require Import Permutation Sorted.
From Verif Require Import Util SharedProofs Distr Props_Distr Groups Props_Groups Partition Comm Props_Part CommProofs.
Open Scope nat_scope.

(** * Specification *)

(** Two elements share at most one face. *)
Definition sharesOne (nElFas nEls : nat) (elFaEl : list (option nat)) : Prop :=
  forall el f f' ad, el < nEls -> f < nElFas -> f' < nElFas ->
    nth_error elFaEl (el * nElFas + f) = Some (Some ad) -> nth_error elFaEl (el * nElFas + f') = Some (Some ad) -> f = f'.

(** A partition between two communicating partitions communicates. *)
Definition noGaps (nElFas nEls : nat) (elFaEl : list (option nat)) (elPa : list nat) : Prop :=
  forall p a b, a < nEls -> b < nEls -> crosses nElFas elFaEl elPa a -> crosses nElFas elFaEl elPa b -> at_ elPa a < p -> p < at_ elPa b ->
    exists e, e < nEls /\ at_ elPa e = p /\ crosses nElFas elFaEl elPa e.

(** A mesh in the order of C27. *)
Record meshIn (nElFas nEls : nat) (elFaEl : list (option nat)) (elPa elTg : list nat) : Prop := mkMeshIn {
  mi_mesh : mesh_ok nElFas nEls elFaEl; mi_pa : length elPa = nEls; mi_tg : length elTg = nEls; mi_pos : 0 < nEls;
  mi_one : sharesOne nElFas nEls elFaEl; mi_gap : noGaps nElFas nEls elFaEl elPa; mi_ord : ordered nElFas nEls elFaEl elPa (at_ elTg) }.

(** All faces sent by a partition: local group, remote partition, remote group, element and face. *)
Definition sentBy (p : partition) : list (nat * nat * nat * (nat * nat)) :=
  flat_map (fun tr => flat_map (fun m => map (fun ef => (trTg tr, msPa m, msTg m, ef)) (combine (msEl m) (msFa m))) (trSend tr)) p.

(** Channels of a partition. *)
Definition chansOf (p : partition) : list chan :=
  flat_map (fun tr => map (fun m => mkChan (trTg tr) (msPa m) (msTg m) (length (msEl m))) (trSend tr)) p.

(** Face [fa] of [el] is a face to element [ad]. *)
Definition face (nElFas : nat) (elFaEl : list (option nat)) (el fa ad : nat) : Prop :=
  fa < nElFas /\ nth_error elFaEl (el * nElFas + fa) = Some (Some ad).

(** * Proofs *)

Lemma combine_map {A B C} (f : A -> B) (g : A -> C) l : combine (map f l) (map g l) = map (fun x => (f x, g x)) l.
Proof. induction l; cbn; congruence. Qed.
Lemma Forall2_in_r {A B} (R : A -> B -> Prop) l l' b : Forall2 R l l' -> In b l' -> exists a, In a l /\ R a b.
Proof. induction 1; intros I; [destruct I|]. destruct I as [->|I]; [exists x; cbn; auto|]. destruct (IHForall2 I) as (a & Ha & Q). exists a. cbn. auto. Qed.
Lemma Forall2_in_l {A B} (R : A -> B -> Prop) l l' a : Forall2 R l l' -> In a l -> exists b, In b l' /\ R a b.
Proof. induction 1; intros I; [destruct I|]. destruct I as [->|I]; [exists y; cbn; auto|]. destruct (IHForall2 I) as (b & Hb & Q). exists b. cbn. auto. Qed.
Lemma Forall2_nth {A B} (R : A -> B -> Prop) l l' i a : Forall2 R l l' -> nth_error l i = Some a -> exists b, nth_error l' i = Some b /\ R a b.
Proof. intros F. revert i. induction F; intros [|i] E; try discriminate; cbn in *; [inversion E; subst; eauto|auto]. Qed.
Lemma NoDup_map_inj {A B} (f : A -> B) l : NoDup l -> (forall x y, In x l -> In y l -> f x = f y -> x = y) -> NoDup (map f l).
Proof.
  induction 1 as [|a l N D IH]; cbn; intros H; constructor; [|apply IH; auto]. intros Q. apply in_map_iff in Q as (y & E & Hy). assert (a = y) by (apply H; auto). congruence.
Qed.

Section Struct.
Variables (nElFas nEls : nat) (elFaEl : list (option nat)) (elPa elTg : list nat).
Hypothesis MI : meshIn nElFas nEls elFaEl elPa elTg.
Notation cr := (cr nElFas elFaEl elPa).
Notation chTo := (chTo elPa elTg).
Notation pairsOf := (pairsOf elPa elTg).
Notation msgOf := (msgOf nElFas elFaEl elPa elTg).
Notation region := (nat * nat * nat)%type.
Notation rT := (fun r : region => fst (fst r)).
Notation rF := (fun r : region => snd (fst r)).
Notation rN := (fun r : region => snd r).
Notation ent := (nat * nat * nat)%type.

Lemma struct_ok : exists rs st, getStruct nElFas nEls elFaEl elPa elTg = Ok st /\ length rs = S (at_ elPa (nEls - 1)) /\ length st = length rs /\
    (forall el, el < nEls -> at_ elPa el < length rs) /\
    forall p regs, nth_error rs p = Some regs -> regsOf nElFas nEls elFaEl elPa elTg p regs /\
      exists trs, nth_error st p = Some trs /\ Forall2 (trOk nElFas elFaEl elPa elTg rs p) regs trs.
Proof. destruct MI. apply getStruct_ok; auto. Qed.

Lemma In_pairsOf l q : In q (pairsOf l) <-> exists x, In x l /\ pairOf elPa elTg x = q.
Proof. destruct MI. eapply CommProofs.In_pairsOf; eauto. Qed.
Lemma In_cr lo n el fa ad : In (el, fa, ad) (cr lo n) <-> lo <= el < lo + n /\ fa < nElFas /\ nth_error elFaEl (el * nElFas + fa) = Some (Some ad) /\ at_ elPa ad <> at_ elPa el.
Proof. destruct MI. eapply CommProofs.In_cr; eauto. Qed.
Lemma NoDup_cr lo n : NoDup (cr lo n).
Proof. destruct MI. eapply CommProofs.NoDup_cr; eauto. Qed.
Lemma NoDup_pairs l : NoDup (pairsOf l).
Proof. destruct MI. eapply CommProofs.sorted_NoDup; eauto. eapply CommProofs.sorted_pairsOf; eauto. Qed.

Definition fl (l : list ent) : list (nat * nat) := map fst l.

Lemma msg_faces l q : combine (msEl (msgOf l q)) (msFa (msgOf l q)) = fl (chTo q l).
Proof. cbn [CommProofs.msgOf msEl msFa]. rewrite combine_map. unfold fl. apply map_ext. intros ((el & fa) & ad). reflexivity. Qed.

Definition sentReg (r : region) : list (nat * nat * nat * (nat * nat)) :=
  flat_map (fun q => map (fun x => (rT r, fst q, snd q, fst x)) (chTo q (cr (rF r) (rN r)))) (pairsOf (cr (rF r) (rN r))).

Lemma sentBy_regs rs p regs trs : Forall2 (trOk nElFas elFaEl elPa elTg rs p) regs trs -> sentBy trs = flat_map sentReg regs.
Proof.
  induction 1 as [|r tr regs trs H F IH]; [reflexivity|]. cbn [flat_map sentBy]. unfold sentBy in *. rewrite IH. f_equal. destruct H as (E1 & E2 & _). rewrite E1, E2.
  unfold sends, sentReg. rewrite flat_map_concat_map, map_map, <- flat_map_concat_map. apply flat_map_ext. intros q. rewrite msg_faces. unfold fl. rewrite map_map. reflexivity.
Qed.

Lemma In_sentReg t f n tg p' t' el fa : In (tg, p', t', (el, fa)) (sentReg (t, f, n)) <->
  tg = t /\ exists ad, In (el, fa, ad) (cr f n) /\ at_ elPa ad = p' /\ at_ elTg ad = t'.
Proof.
  unfold sentReg. cbn [fst snd]. rewrite in_flat_map. split.
  - intros (q & Hq & H). apply in_map_iff in H as (((e & fc) & ad) & E & H). cbn [fst] in E. inversion E; subst. apply In_chTo in H as (H & A & B). split; auto. exists ad. auto.
  - intros (-> & ad & H & <- & <-). exists (at_ elPa ad, at_ elTg ad). split; [apply In_pairsOf; exists (el, fa, ad); auto|]. apply in_map_iff. exists (el, fa, ad). split; auto. apply In_chTo. auto.
Qed.

(** regions of a partition are disjoint *)
Lemma reg_disj p regs r r' el : regsOf nElFas nEls elFaEl elPa elTg p regs -> In r regs -> In r' regs -> rF r <= el < rF r + rN r -> rF r' <= el < rF r' + rN r' -> r = r'.
Proof.
  intros (S & R & _) I I' H H'. destruct r as ((t & f) & n), r' as ((t' & f') & n'). cbn [fst snd] in *.
  destruct (R _ _ _ I) as ((_ & _ & U) & _). destruct (R _ _ _ I') as ((_ & _ & U') & _).
  assert (t = t') as <- by (destruct (U el H) as (_ & <-); now destruct (U' el H')).
  clear - S I I'. revert S I I'. induction regs as [|x l IH]; cbn; intros S A B; [destruct A|].
  inversion S as [|? ? S' F]; subst. rewrite Forall_forall in F. destruct A as [->|A], B as [B|B]; auto; exfalso;
    [assert (t < t) by (apply (F t), in_map_iff; exists (t, f', n'); auto)|subst x; assert (t < t) by (apply (F t), in_map_iff; exists (t, f, n); auto)]; lia.
Qed.
Lemma regs_NoDup p regs : regsOf nElFas nEls elFaEl elPa elTg p regs -> NoDup regs.
Proof.
  intros (S & _). clear - S. induction regs as [|x l IH]; constructor; inversion S as [|? ? S' F]; subst; auto.
  intros I. rewrite Forall_forall in F. assert (rT x < rT x) by (apply F, in_map_iff; eauto). cbn in *. lia.
Qed.

Lemma chTo_disj q q' l x : In x (chTo q l) -> In x (chTo q' l) -> q = q'.
Proof. destruct x as ((el & fa) & ad), q, q'. intros A B. apply In_chTo in A as (_ & A1 & A2). apply In_chTo in B as (_ & B1 & B2). cbn in *. congruence. Qed.

Lemma cr_key f n x y : In x (cr f n) -> In y (cr f n) -> fst x = fst y -> x = y.
Proof.
  destruct x as ((el & fa) & ad), y as ((el' & fa') & ad'). cbn [fst]. intros A B E. inversion E; subst. apply In_cr in A as (_ & _ & A & _). apply In_cr in B as (_ & _ & B & _). congruence.
Qed.

Lemma map_flat_map {A B C} (g : B -> C) (f : A -> list B) l : map g (flat_map f l) = flat_map (fun a => map g (f a)) l.
Proof. induction l as [|a l IH]; cbn; auto. now rewrite map_app, IH. Qed.

Lemma sent_NoDup p regs : regsOf nElFas nEls elFaEl elPa elTg p regs -> NoDup (map snd (flat_map sentReg regs)).
Proof.
  intros R. rewrite map_flat_map. apply NoDup_flat; [now apply (regs_NoDup p)| |].
  - intros ((t & f) & n) _. unfold sentReg. cbn [fst snd]. rewrite map_flat_map. apply NoDup_flat; [apply NoDup_pairs| |].
    + intros q _. rewrite map_map. cbn [snd]. apply NoDup_map_inj; [apply NoDup_filter, NoDup_cr|].
      intros x y Hx Hy. apply filter_In in Hx as (Hx & _). apply filter_In in Hy as (Hy & _). now apply (cr_key f n).
    + intros q q' ef _ _ A B. rewrite map_map in A, B. cbn [snd] in A, B. apply in_map_iff in A as (x & <- & A). apply in_map_iff in B as (y & E & B).
      assert (y = x) as -> by (pose proof A; pose proof B; apply filter_In in A as (A & _); apply filter_In in B as (B & _); now apply (cr_key f n)). eapply chTo_disj; eauto.
  - intros r r' (el & fa) I I' A B.
    assert (EL : forall r, In (el, fa) (map snd (sentReg r)) -> rF r <= el < rF r + rN r).
    { intros ((t & f) & n) H. apply in_map_iff in H as ((((tg & p') & t') & ef) & E & H). cbn [snd] in E. subst ef. apply In_sentReg in H as (_ & ad & H & _). apply In_cr in H. cbn. tauto. }
    eapply reg_disj; eauto.
Qed.

Lemma chan_key rs p regs trs : regsOf nElFas nEls elFaEl elPa elTg p regs -> Forall2 (trOk nElFas elFaEl elPa elTg rs p) regs trs ->
  map (fun c => (cTg c, cRa c, cTgAd c)) (chansOf trs) = flat_map (fun r => map (fun q => (rT r, fst q, snd q)) (pairsOf (cr (rF r) (rN r)))) regs.
Proof.
  intros _. induction 1 as [|r tr regs trs H F IH]; [reflexivity|]. unfold chansOf in *. cbn [flat_map]. rewrite map_app, IH. f_equal. destruct H as (E1 & E2 & _).
  rewrite E1, E2. unfold sends. rewrite !map_map. reflexivity.
Qed.
Lemma chan_NoDup p regs : regsOf nElFas nEls elFaEl elPa elTg p regs ->
  NoDup (flat_map (fun r : region => map (fun q => (rT r, fst q, snd q)) (pairsOf (cr (rF r) (rN r)))) regs).
Proof.
  intros R. apply NoDup_flat; [now apply (regs_NoDup p)| |].
  - intros r _. apply NoDup_map_inj; [apply NoDup_pairs|]. intros (a & b) (c & d) _ _ E. cbn in E. inversion E; auto.
  - intros r r' x I I' A B. apply in_map_iff in A as (q & <- & A). apply in_map_iff in B as (q' & E & B). inversion E as [[E1 E2 E3]].
    destruct R as (S & _). clear - S I I' E1. revert S I I'. induction regs as [|x l IH]; cbn; intros S A B; [destruct A|].
    inversion S as [|? ? S' F]; subst. rewrite Forall_forall in F. destruct A as [->|A], B as [B|B]; auto; exfalso;
      [assert (rT r < rT r') by (apply F, in_map_iff; eauto)|subst x; assert (rT r' < rT r) by (apply F, in_map_iff; eauto)]; cbn in *; lia.
Qed.
End Struct.

(** * C28 *)

(** Each partition-crossing face of a partition is sent exactly once, in the channel of the element's group, the adjacent partition
    and the adjacent element's group; no other face is sent; channels are unique and not empty. *)
Theorem C28_each_face_once nElFas nEls elFaEl elPa elTg : meshIn nElFas nEls elFaEl elPa elTg ->
  exists st, getStruct nElFas nEls elFaEl elPa elTg = Ok st /\ length st = S (at_ elPa (nEls - 1)) /\
  forall p trs, nth_error st p = Some trs ->
    NoDup (map snd (sentBy trs)) /\
    (forall tg paAd tgAd el fa, In (tg, paAd, tgAd, (el, fa)) (sentBy trs) <->
       el < nEls /\ at_ elPa el = p /\ at_ elTg el = tg /\ exists ad, face nElFas elFaEl el fa ad /\ at_ elPa ad = paAd /\ paAd <> p /\ at_ elTg ad = tgAd) /\
    NoDup (map (fun c => (cTg c, cRa c, cTgAd c)) (chansOf trs)) /\
    (forall tr m, In tr trs -> In m (trSend tr) -> 0 < length (msEl m) /\ length (msFa m) = length (msEl m)).
Proof.
  intros MI. destruct (struct_ok _ _ _ _ _ MI) as (rs & st & E & L & LS & HP & H). exists st. split; auto. split; [lia|]. intros p trs Ht.
  assert (Hp : p < length rs) by (rewrite <- LS; apply nth_error_Some; congruence). destruct (nth_error rs p) as [regs|] eqn:Er; [|apply nth_error_None in Er; lia].
  destruct (H p regs Er) as (R & trs' & Et & F). assert (trs' = trs) as -> by congruence.
  rewrite (sentBy_regs _ _ _ _ _ _ _ _ F). split; [eapply sent_NoDup; eauto|]. split; [|split].
  - intros tg paAd tgAd el fa. rewrite in_flat_map. destruct R as (R1 & R2 & R3). split.
    + intros (((t & f) & n) & I & J). apply (In_sentReg _ _ _ _ _ MI) in J as (-> & ad & J & A & B). apply (In_cr _ _ _ _ _ MI) in J as (J1 & J2 & J3 & J4).
      destruct (R2 _ _ _ I) as ((U1 & U2 & U3) & _). destruct (U3 el J1) as (P & T). repeat split; auto; [lia|]. exists ad. repeat split; auto. congruence.
    + intros (He & P & T & ad & (Hfa & EF) & A & N & B). destruct (R3 el He P) as (t & f & n & I & J).
      { exists ad. split; [exists fa; auto|congruence]. }
      exists (t, f, n). split; auto. apply (In_sentReg _ _ _ _ _ MI). destruct (R2 _ _ _ I) as ((_ & _ & U3) & _). destruct (U3 el J) as (_ & T'). split; [congruence|].
      exists ad. split; auto. apply (In_cr _ _ _ _ _ MI). repeat split; auto; try lia; congruence.
  - erewrite chan_key by eauto. eapply chan_NoDup; eauto.
  - intros tr m Htr Hm. destruct (Forall2_in_r _ _ _ _ F Htr) as (((t & f) & n) & I & (E1 & E2 & _)). rewrite E2 in Hm. unfold sends in Hm. apply in_map_iff in Hm as (q & <- & Hq). cbn [fst snd] in *.
    cbn [msgOf msEl msFa]. rewrite !map_length. split; auto. apply (In_pairsOf _ _ _ _ _ MI) in Hq as (((el & fa) & ad) & Hx & <-).
    assert (X : In (el, fa, ad) (chTo elPa elTg (pairOf elPa elTg (el, fa, ad)) (cr nElFas elFaEl elPa f n))) by (apply In_chTo; auto).
    destruct (chTo elPa elTg _ _); [destruct X|cbn; lia].
Qed.
Print Assumptions C28_each_face_once.

(** * C29 *)

(** The i-th face received in a channel is the other side of the i-th face which the adjacent partition sends in the mirrored channel;
    the received faces are the sent faces of the channel, in another order. *)
Theorem C29_same_order nElFas nEls elFaEl elPa elTg st : meshIn nElFas nEls elFaEl elPa elTg -> getStruct nElFas nEls elFaEl elPa elTg = Ok st ->
  forall p trs tr s m, nth_error st p = Some trs -> In tr trs -> nth_error (trSend tr) s = Some m ->
  exists re trs' tr' m', nth_error (trRecv tr) s = Some re /\ msPa re = msPa m /\ msTg re = msTg m /\
    nth_error st (msPa m) = Some trs' /\ In tr' trs' /\ trTg tr' = msTg m /\ In m' (trSend tr') /\ msPa m' = p /\ msTg m' = trTg tr /\
    length (msEl m') = length (msEl m) /\ length (msEl re) = length (msEl m) /\ length (msFa re) = length (msEl m) /\
    (forall i el fa, nth_error (msEl re) i = Some el -> nth_error (msFa re) i = Some fa ->
       exists el' fa', nth_error (msEl m') i = Some el' /\ nth_error (msFa m') i = Some fa' /\
         face nElFas elFaEl el fa el' /\ face nElFas elFaEl el' fa' el) /\
    Permutation (combine (msEl re) (msFa re)) (combine (msEl m) (msFa m)).
Proof.
  intros MI E0 p trs tr s m Ht Htr Hm. destruct (struct_ok _ _ _ _ _ MI) as (rs & st' & E & L & LS & HP & H). assert (st' = st) as -> by congruence.
  assert (Hp : p < length rs) by (rewrite <- LS; apply nth_error_Some; congruence). destruct (nth_error rs p) as [regs|] eqn:Er; [|apply nth_error_None in Er; lia].
  destruct (H p regs Er) as (R & trs0 & Et & F). assert (trs0 = trs) as -> by congruence.
  destruct (Forall2_in_r _ _ _ _ F Htr) as (((t & f) & n) & I & (E1 & E2 & F2)). cbn [fst snd] in *. rewrite E2 in Hm. unfold sends in Hm. rewrite nth_error_map in Hm.
  destruct (nth_error (pairsOf elPa elTg (cr nElFas elFaEl elPa f n)) s) as [q|] eqn:Eq; [|discriminate]. cbn in Hm. inversion Hm as [Hm']. clear Hm.
  destruct (Forall2_nth _ _ _ _ _ F2 Eq) as (re & Hre & regs' & f' & n' & Er' & I' & IP & -> & LEN).
  destruct (H _ _ Er') as (R' & trs' & Et' & F'). destruct (Forall2_in_l _ _ _ _ F' I') as (tr' & Htr' & (E1' & E2' & _)). cbn [fst snd] in *.
  set (m2 := msgOf nElFas elFaEl elPa elTg (cr nElFas elFaEl elPa f' n') (p, t)) in *.
  exists (mirrorOf m m2), trs', tr', m2. subst m. split; auto. cbn [mirrorOf msPa msTg msEl msFa msgOf]. split; auto. split; auto. split; auto. split; auto. split; auto.
  split; [rewrite E2'; unfold sends; apply in_map; auto|]. split; auto. split; auto.
  unfold m2. cbn [msgOf msEl msFa msElAd msFaAd msPa msTg]. rewrite !map_length. split; auto. split; auto. split; auto.
  destruct R as (RS & R2 & R3). destruct R' as (RS' & R2' & R3'). destruct (R2 _ _ _ I) as (U & UC). destruct (R2' _ _ _ I') as (U' & UC').
  assert (FA : forall el fa ad, In (el, fa, ad) (chTo elPa elTg (p, t) (cr nElFas elFaEl elPa f' n')) ->
     exists fa', faAdOf nElFas elFaEl (el, fa, ad) = fa' /\ face nElFas elFaEl ad fa' el /\ face nElFas elFaEl el fa ad /\ el < nEls /\ at_ elPa ad = p /\ at_ elTg ad = t /\ at_ elPa el = fst q /\ at_ elTg el = snd q /\ at_ elPa ad <> at_ elPa el).
  { intros el fa ad Hx. apply In_chTo in Hx as (Hx & A & B). apply (In_cr _ _ _ _ _ MI) in Hx as (X1 & X2 & X3 & X4). destruct U' as (_ & U1 & U2). destruct (U2 el X1) as (P & T).
    destruct MI as [M1 M2 M3 M4 M5 M6 M7]. destruct (CommProofs.faAd_ok nElFas nEls elFaEl elPa elTg M1 M2 M3 el fa ad ltac:(lia) X2 X3) as (fa' & G1 & G2 & G3).
    exists fa'. unfold faAdOf. cbn [fst snd]. rewrite G1. repeat split; auto. lia. }
  split.
  - intros i el fa A B. rewrite nth_error_map in A, B. destruct (nth_error (chTo elPa elTg (p, t) (cr nElFas elFaEl elPa f' n')) i) as [((e & fc) & a)|] eqn:Ex; [|discriminate].
    cbn in A, B. inversion A; inversion B; subst. clear A B. destruct (FA e fc el (nth_error_In _ _ Ex)) as (fa' & G1 & G2 & G3 & _). exists e, fc. rewrite !nth_error_map, Ex. cbn [option_map fst snd].
    split; auto. split; auto. split; [|auto]. rewrite <- G1 in G2. exact G2.
  - rewrite !combine_map. apply NoDup_Permutation_bis.
    + apply NoDup_map_inj; [apply NoDup_filter; now apply (NoDup_cr _ _ _ _ _ MI)|]. intros ((e & fc) & a) ((e' & fc') & a') Hx Hy Q. cbn [fst snd] in Q.
      destruct (FA _ _ _ Hx) as (g & G1 & (G2 & G2') & (G3 & G3') & G4 & _). destruct (FA _ _ _ Hy) as (g' & G1' & (G5 & G5') & (G6 & G6') & G7 & _).
      injection Q as Q1 Q2. subst a'. rewrite G1, G1' in Q2. subst g'. assert (e = e') as <- by congruence. f_equal. f_equal. apply (mi_one _ _ _ _ _ MI e fc fc' a); auto.
    + rewrite !map_length. lia.
    + intros x Hx. apply in_map_iff in Hx as (((e & fc) & a) & <- & Hx). destruct (FA _ _ _ Hx) as (g & G1 & (G2 & G2') & (G3 & G3') & G4 & G5 & G6 & G7 & G8 & G9). cbn [fst snd].
      replace (faAdOf nElFas elFaEl (e, fc, a)) with g by auto. apply in_map_iff. exists (a, g, e). split; auto. apply In_chTo. split; auto. apply (In_cr _ _ _ _ _ MI). repeat split; auto.
      * assert (Ha : a < nEls) by (destruct (mi_mesh _ _ _ _ _ MI) as (_ & MR & _); apply (MR e); auto; exists fc; auto).
        destruct (R3 a Ha G5) as (t0 & f0 & n0 & I0 & J0). { exists e. split; [exists g; auto|auto]. }
        destruct (R2 _ _ _ I0) as ((_ & _ & U0) & _). destruct (U0 a J0) as (_ & T0).
        assert (Q : (t0, f0, n0) = (t, f, n)).
        { assert (t0 = t) as -> by congruence. clear - RS I0 I. revert RS I0 I. induction regs as [|x l IH]; cbn; intros S A B; [destruct A|].
          inversion S as [|? ? S' FF]; subst. rewrite Forall_forall in FF. destruct A as [->|A], B as [B|B]; auto; exfalso;
            [assert (t < t) by (apply (FF t), in_map_iff; exists (t, f, n); auto)|subst x; assert (t < t) by (apply (FF t), in_map_iff; exists (t, f0, n0); auto)]; lia. }
        inversion Q; subst. lia.
      * assert (Ha : a < nEls) by (destruct (mi_mesh _ _ _ _ _ MI) as (_ & MR & _); apply (MR e); auto; exists fc; auto).
        destruct (R3 a Ha G5) as (t0 & f0 & n0 & I0 & J0). { exists e. split; [exists g; auto|auto]. }
        destruct (R2 _ _ _ I0) as ((_ & _ & U0) & _). destruct (U0 a J0) as (_ & T0).
        assert (Q : (t0, f0, n0) = (t, f, n)).
        { assert (t0 = t) as -> by congruence. clear - RS I0 I. revert RS I0 I. induction regs as [|x l IH]; cbn; intros S A B; [destruct A|].
          inversion S as [|? ? S' FF]; subst. rewrite Forall_forall in FF. destruct A as [->|A], B as [B|B]; auto; exfalso;
            [assert (t < t) by (apply (FF t), in_map_iff; exists (t, f, n); auto)|subst x; assert (t < t) by (apply (FF t), in_map_iff; exists (t, f0, n0); auto)]; lia. }
        inversion Q; subst. lia.
Qed.
Print Assumptions C29_same_order.

(** ** Flat arrays *)

(** Faces and elements which a partition sends and receives, in the order of the channels. *)
Definition sFas (p : partition) : list nat := flat_map (fun tr => flat_map msFa (trSend tr)) p.
Definition sEls (p : partition) : list nat := flat_map (fun tr => flat_map msEl (trSend tr)) p.
Definition rFas (p : partition) : list nat := flat_map (fun tr => flat_map msFa (trRecv tr)) p.
Definition rEls (p : partition) : list nat := flat_map (fun tr => flat_map msEl (trRecv tr)) p.

(** Part [pa] of an array with the parts [parts]. *)
Definition piece {A} (parts : list (list A)) (pa : nat) (l : list A) : list A := firstn (length (nth pa parts [])) (skipn (length (concat (firstn pa parts))) l).

Lemma piece_concat {A} (parts : list (list A)) pa rest : pa < length parts -> piece parts pa (concat parts ++ rest) = nth pa parts [].
Proof.
  revert pa. induction parts as [|x parts IH]; intros pa H; cbn in H; [lia|]. unfold piece in *. destruct pa as [|pa]; cbn [nth firstn concat length app skipn].
  - rewrite <- app_assoc, firstn_app, firstn_all, Nat.sub_diag. cbn. apply app_nil_r.
  - rewrite app_length, <- app_assoc, skipn_app. rewrite skipn_all2 by lia. cbn [app]. replace (length x + length (concat (firstn pa parts)) - length x) with (length (concat (firstn pa parts))) by lia. apply IH. lia.
Qed.

Lemma wr_snoc (l : list nat) k X v : firstn k l = X -> k = length X -> k < length l -> wr l k v = Ok (upd l k v) /\ firstn (k + 1) (upd l k v) = X ++ [v].
Proof. intros H1 H2 H3. split; [now apply wr_ok|]. rewrite Nat.add_1_r, firstn_upd by auto. now rewrite H1. Qed.

Lemma upd_at (l : list nat) i v j : i < length l -> at_ (upd l i v) j = if j =? i then v else at_ l j.
Proof. apply at_upd. Qed.

Lemma sum_loop {T} (g : T -> nat) (body : nat -> list nat -> res (list nat)) (l : list T) (k : nat) : forall (off : list nat),
  (forall i x o, nth_error l i = Some x -> length o = length off -> body i o = wr o k (at_ o k + g x)) -> k < length off ->
  for_ 0 (length l) body off = Ok (upd off k (at_ off k + list_sum (map g l))).
Proof.
  intros off HB Hk.
  destruct (for_ok (fun i (o : list nat) => o = upd off k (at_ off k + list_sum (map g (firstn i l)))) 0 (length l) body off) as (o & E & ->); [lia| | |].
  - cbn. rewrite Nat.add_0_r. symmetry. apply nth_error_ext'. intros j. rewrite nth_error_upd. destruct (Nat.eqb_spec k j) as [<-|]; cbn [andb]; auto.
    replace (k <? length off) with true by lia. symmetry. apply nth_error_nth'. auto.
  - intros i o Hi ->. destruct (nth_error l i) as [x|] eqn:Ex; [|apply nth_error_None in Ex; lia].
    rewrite (HB i x) by (auto; now rewrite length_upd). rewrite at_upd, Nat.eqb_refl by auto. rewrite wr_ok by (rewrite length_upd; auto). eexists. split; [reflexivity|].
    rewrite (firstn_S_snoc _ _ _ Ex), map_app, list_sum_app. cbn [map]. rewrite list_sum_cons. change (list_sum []) with 0.
    apply nth_error_ext'. intros j. rewrite !nth_error_upd, length_upd. destruct ((k =? j) && (k <? length off)); auto. f_equal. lia.
  - rewrite firstn_all in E. exact E.
Qed.

Lemma prefix_offsets {T} (g : T -> nat) (body : nat -> list nat -> res (list nat)) (st : list T) (off : list nat) :
  (forall pa x o, nth_error st pa = Some x -> length o = length off -> body pa o = Ok (upd o (pa + 1) (at_ o pa + g x))) -> length st < length off ->
  exists out, (o <- wr off 0 0 ;; for_ 0 (length st) body o) = Ok out /\ length out = length off /\
    forall pa, pa <= length st -> at_ out pa = list_sum (map g (firstn pa st)).
Proof.
  intros HB HL. wrn.
  destruct (for_ok (fun k (o : list nat) => length o = length off /\ forall pa, pa <= k -> at_ o pa = list_sum (map g (firstn pa st))) 0 (length st) body (upd off 0 0)) as (out & E & L & H); [lia| | |].
  - rewrite length_upd. split; auto. intros pa Hp. assert (pa = 0) as -> by lia. rewrite at_upd by lia. reflexivity.
  - intros k o Hk (L & H). destruct (nth_error st k) as [x|] eqn:Ex; [|apply nth_error_None in Ex; lia]. rewrite (HB k x o Ex L). eexists. split; [reflexivity|]. rewrite length_upd. split; auto.
    intros pa Hp. rewrite at_upd by lia. destruct (Nat.eqb_spec pa (k + 1)) as [->|]; [|apply H; lia].
    replace (k + 1) with (S k) by lia. rewrite (firstn_S_snoc _ _ _ Ex), map_app, list_sum_app, (H k) by lia. cbn [map]. rewrite list_sum_cons. change (list_sum []) with 0. lia.
  - exists out. auto.
Qed.

Lemma chansOf_length p : length (chansOf p) = list_sum (map (fun tr => length (trSend tr)) p).
Proof. unfold chansOf. induction p as [|tr p IH]; auto. cbn [flat_map map]. rewrite app_length, map_length, list_sum_cons, IH. reflexivity. Qed.

Lemma setChOff_ok st off : length st < length off -> exists out, setChOff st off = Ok out /\ length out = length off /\
  forall pa, pa <= length st -> at_ out pa = list_sum (map (fun p => length (chansOf p)) (firstn pa st)).
Proof.
  intros HL. unfold setChOff. apply prefix_offsets; auto. intros pa p o Hp L. assert (pa < length st) by (apply nth_error_Some; congruence).
  rewrite (rd_some _ _ _ Hp). cbn [bind]. rdn 0. fold (at_ o pa). wrn.
  rewrite (sum_loop (fun tr => length (trSend tr)) _ p (pa + 1)).
  - rewrite at_upd, Nat.eqb_refl by lia. rewrite <- chansOf_length. f_equal. apply nth_error_ext'. intros j. rewrite !nth_error_upd, length_upd. destruct ((pa + 1 =? j) && (pa + 1 <? length o)); auto.
  - intros i tr o' Ht Lo. rewrite (rd_some _ _ _ Ht). cbn [bind]. rewrite length_upd in Lo. rdn 0. reflexivity.
  - rewrite length_upd. lia.
Qed.

Lemma setSeReElFaOff_ok st off : length st < length off -> exists out, setSeReElFaOff st off = Ok out /\ length out = length off /\
  forall pa, pa <= length st -> at_ out pa = list_sum (map (fun p => length (sEls p)) (firstn pa st)).
Proof.
  intros HL. unfold setSeReElFaOff. apply prefix_offsets; auto. intros pa p o Hp L. assert (pa < length st) by (apply nth_error_Some; congruence).
  rewrite (rd_some _ _ _ Hp). cbn [bind]. rdn 0. fold (at_ o pa). wrn.
  rewrite (sum_loop (fun tr => length (flat_map msEl (trSend tr))) _ p (pa + 1)).
  - rewrite at_upd, Nat.eqb_refl by lia. f_equal. replace (list_sum (map (fun tr => length (flat_map msEl (trSend tr))) p)) with (length (sEls p)).
    + apply nth_error_ext'. intros j. rewrite !nth_error_upd, length_upd. destruct ((pa + 1 =? j) && (pa + 1 <? length o)); auto.
    + unfold sEls. clear. induction p as [|tr p IH]; auto. cbn [flat_map map]. rewrite app_length, list_sum_cons, IH. reflexivity.
  - intros i tr o' Ht Lo. rewrite (rd_some _ _ _ Ht). cbn [bind]. rewrite length_upd in Lo.
    rewrite (sum_loop (fun m => length (msEl m)) _ (trSend tr) (pa + 1)).
    + rewrite wr_ok by lia. replace (list_sum (map (fun m => length (msEl m)) (trSend tr))) with (length (flat_map msEl (trSend tr))); auto.
      clear. induction (trSend tr) as [|m l IH]; auto. cbn [flat_map map]. rewrite app_length, list_sum_cons, IH. reflexivity.
    + intros k m o2 Hm L2. rewrite (rd_some _ _ _ Hm). cbn [bind]. rdn 0. reflexivity.
    + lia.
  - rewrite length_upd. lia.
Qed.

Lemma chansOf_app a b : chansOf (a ++ b) = chansOf a ++ chansOf b.
Proof. apply flat_map_app. Qed.
Lemma chansOf_one tr : chansOf [tr] = map (fun m => mkChan (trTg tr) (msPa m) (msTg m) (length (msEl m))) (trSend tr).
Proof. unfold chansOf. cbn [flat_map]. apply app_nil_r. Qed.

Lemma encode_length chs : length (encode chs) = 1 + 4 * length chs.
Proof. unfold encode. cbn [length]. induction chs as [|c chs IH]; auto. cbn [flat_map length app] in *. lia. Qed.

Lemma setChs_ok st off chs : length st < length off -> (forall pa, pa <= length st -> at_ off pa = list_sum (map (fun p => length (chansOf p)) (firstn pa st))) ->
  length st + 4 * at_ off (length st) <= length chs ->
  exists out, setChs st off chs = Ok out /\ length out = length chs /\ firstn (length st + 4 * at_ off (length st)) out = flat_map (fun p => encode (chansOf p)) st.
Proof.
  intros HL HO HC. unfold setChs.
  assert (MON : forall pa, pa <= length st -> at_ off pa <= at_ off (length st)).
  { intros pa Hp. rewrite !HO by lia. rewrite firstn_all. transitivity (list_sum (map (fun p => length (chansOf p)) (firstn pa st ++ skipn pa st))); [|now rewrite firstn_skipn]. rewrite map_app, list_sum_app. lia. }
  assert (FL : forall pa, pa <= length st -> length (flat_map (fun p => encode (chansOf p)) (firstn pa st)) = pa + 4 * at_ off pa).
  { intros pa Hp. rewrite HO by auto. clear - Hp. revert pa Hp. induction st as [|p st IH]; intros [|pa] Hp; cbn [length] in *; auto; [lia|]. cbn [firstn flat_map map]. rewrite app_length, list_sum_cons, encode_length, IH by lia. lia. }
  loop (fun pa (o : list nat) => length o = length chs /\ firstn (pa + 4 * at_ off pa) o = flat_map (fun p => encode (chansOf p)) (firstn pa st)) as out E (L & H).
  - lia.
  - split; auto. rewrite HO by lia. reflexivity.
  - intros pa o Hp (L & H). destruct (nth_error st pa) as [p|] eqn:Ep; [|apply nth_error_None in Ep; lia]. rewrite (rd_some _ _ _ Ep). cbn [bind]. rdn 0. rdn 0. fold (at_ off pa) (at_ off (pa + 1)).
    assert (OS : at_ off (pa + 1) = at_ off pa + length (chansOf p)).
    { rewrite !HO by lia. replace (pa + 1) with (S pa) by lia. rewrite (firstn_S_snoc _ _ _ Ep), map_app, list_sum_app. cbn [map]. rewrite list_sum_cons. change (list_sum []) with 0. lia. }
    pose proof (MON (pa + 1) ltac:(lia)) as MO. replace (at_ off pa * 4 + pa) with (pa + 4 * at_ off pa) by lia.
    destruct (wr_snoc o (pa + 4 * at_ off pa) _ (at_ off (pa + 1) - at_ off pa) H (eq_sym (FL pa ltac:(lia))) ltac:(lia)) as (-> & W). cbn [bind].
    set (base := flat_map (fun p => encode (chansOf p)) (firstn pa st)) in *. set (o1 := upd o (pa + 4 * at_ off pa) (at_ off (pa + 1) - at_ off pa)) in *.
    replace (at_ off (pa + 1) - at_ off pa) with (length (chansOf p)) in W by lia.
    set (enc := flat_map (fun c => [cTg c; cRa c; cTgAd c; cN c])).
    loop (fun i (s : nat * list nat) => length (snd s) = length chs /\ fst s = pa + 4 * at_ off pa + 1 + 4 * length (chansOf (firstn i p)) /\
      firstn (fst s) (snd s) = base ++ [length (chansOf p)] ++ enc (chansOf (firstn i p))) as (off1 & o2) E1 (A1 & A2 & A3).
    + lia.
    + cbn [fst snd]. unfold o1. rewrite length_upd. split; [auto|]. try (split; [cbn; lia|exact W]).
    + intros i (off1 & o2) Hi (A1 & A2 & A3). cbn [fst snd] in *. destruct (nth_error p i) as [tr|] eqn:Et; [|apply nth_error_None in Et; lia]. rewrite (rd_some _ _ _ Et). cbn [bind].
      set (X := base ++ [length (chansOf p)] ++ enc (chansOf (firstn i p))) in *.
      assert (LC : length (chansOf (firstn i p)) + length (trSend tr) <= length (chansOf p)).
      { rewrite !chansOf_length. rewrite <- (firstn_skipn (S i) p) at 2. rewrite (firstn_S_snoc _ _ _ Et), !map_app, !list_sum_app. cbn [map]. rewrite list_sum_cons. lia. }
      set (cm := fun m => mkChan (trTg tr) (msPa m) (msTg m) (length (msEl m))).
      loop (fun j (s : nat * list nat) => length (snd s) = length chs /\ fst s = off1 + 4 * j /\ firstn (fst s) (snd s) = X ++ enc (map cm (firstn j (trSend tr)))) as (off2 & o3) E2 (B1 & B2 & B3).
      * lia.
      * cbn [fst snd firstn map]. split; [auto|]. split; [lia|]. cbn. rewrite app_nil_r. auto.
      * intros j (off2 & o3) Hj (B1 & B2 & B3). cbn [fst snd] in *. destruct (nth_error (trSend tr) j) as [m|] eqn:Em; [|apply nth_error_None in Em; lia]. rewrite (rd_some _ _ _ Em). cbn [bind].
        assert (LX : off2 = length (X ++ enc (map cm (firstn j (trSend tr))))) by (apply (f_equal (@length _)) in B3; rewrite firstn_length, Nat.min_l in B3 by lia; auto).
        assert (BD : off2 + 4 <= length chs) by lia.
        set (Y := X ++ enc (map cm (firstn j (trSend tr)))) in *. rewrite Nat.add_0_r.
        destruct (wr_snoc o3 off2 _ (trTg tr) B3 LX ltac:(lia)) as (-> & W1). cbn [bind].
        destruct (wr_snoc _ (off2 + 1) _ (msPa m) W1 ltac:(rewrite app_length; cbn; lia) ltac:(rewrite length_upd; lia)) as (-> & W2). cbn [bind]. replace (off2 + 1 + 1) with (off2 + 2) in W2 by lia.
        destruct (wr_snoc _ (off2 + 2) _ (msTg m) W2 ltac:(rewrite !app_length; cbn; lia) ltac:(rewrite !length_upd; lia)) as (-> & W3). cbn [bind]. replace (off2 + 2 + 1) with (off2 + 3) in W3 by lia.
        destruct (wr_snoc _ (off2 + 3) _ (length (msEl m)) W3 ltac:(rewrite !app_length; cbn; lia) ltac:(rewrite !length_upd; lia)) as (-> & W4). cbn [bind]. replace (off2 + 3 + 1) with (off2 + 4) in W4 by lia.
        eexists. split; [reflexivity|]. cbn [fst snd]. rewrite !length_upd. split; auto. split; [lia|]. rewrite W4, (firstn_S_snoc _ _ _ Em), map_app. unfold Y, enc. rewrite flat_map_app. cbn [map flat_map]. rewrite <- !app_assoc. reflexivity.
      * cbn [fst snd] in *. eexists. split; [reflexivity|]. cbn [fst snd]. split; auto. rewrite (firstn_S_snoc _ _ _ Et). rewrite chansOf_app, chansOf_one, app_length, map_length.
        split; [lia|]. rewrite B3, firstn_all. unfold X, enc. rewrite flat_map_app, <- !app_assoc. reflexivity.
    + cbn [fst snd] in *. cbn [bind]. eexists. split; [reflexivity|]. split; auto. rewrite firstn_all in *.
      replace (S pa + 4 * at_ off (S pa)) with off1 by (replace (S pa) with (pa + 1) by lia; lia). rewrite A3, (firstn_S_snoc _ _ _ Ep), flat_map_app. fold base. cbn [flat_map]. rewrite app_nil_r. reflexivity.
  - exists out. rewrite firstn_all in H. auto.
Qed.

(** ** Faces *)
Definition firstEl (nPaEls : list nat) (pa : nat) : nat := list_sum (firstn pa nPaEls).

(** Send and receive messages have matching lengths, and their elements belong to the partition. *)
Definition msgsOk (lo : nat) (p : partition) : Prop := forall tr, In tr p -> Forall2 (fun m r =>
  length (msFa m) = length (msEl m) /\ length (msEl r) = length (msEl m) /\ length (msFa r) = length (msEl m) /\
  (forall el, In el (msEl m) \/ In el (msEl r) -> lo <= el)) (trSend tr) (trRecv tr).

Record acc4 := mkA4 { a1 : list nat; a2 : list nat; a3 : list nat; a4 : list nat }.
Definition app4 (x y : acc4) : acc4 := mkA4 (a1 x ++ a1 y) (a2 x ++ a2 y) (a3 x ++ a3 y) (a4 x ++ a4 y).
Definition at4 (N id : nat) (o : seRe) (X : acc4) : Prop :=
  length (sendFa o) = N /\ length (sendEl o) = N /\ length (recvFa o) = N /\ length (recvEl o) = N /\
  length (a1 X) = id /\ length (a2 X) = id /\ length (a3 X) = id /\ length (a4 X) = id /\
  firstn id (sendFa o) = a1 X /\ firstn id (sendEl o) = a2 X /\ firstn id (recvFa o) = a3 X /\ firstn id (recvEl o) = a4 X.

Lemma at4_S N id o X v1 v2 v3 v4 : at4 N id o X -> id < N ->
  at4 N (id + 1) (mkSeRe (upd (sendFa o) id v1) (upd (sendEl o) id v2) (upd (recvFa o) id v3) (upd (recvEl o) id v4)) (app4 X (mkA4 [v1] [v2] [v3] [v4])).
Proof.
  intros (H1 & H2 & H3 & H4 & H5 & H6 & H7 & H8 & H9 & H10 & H11 & H12) Hid. unfold at4, app4. cbn [sendFa sendEl recvFa recvEl a1 a2 a3 a4]. rewrite !length_upd, !app_length. cbn [length].
  rewrite !Nat.add_1_r, !firstn_upd by lia. rewrite H9, H10, H11, H12. repeat split; auto; lia.
Qed.

Definition msg4 (lo : nat) (m r : message) : acc4 := mkA4 (msFa m) (map (fun e => e - lo) (msEl m)) (msFa r) (map (fun e => e - lo) (msEl r)).
Definition tr4 (lo : nat) (tr : timeRegion) : acc4 := mkA4 (flat_map msFa (trSend tr)) (map (fun e => e - lo) (flat_map msEl (trSend tr))) (flat_map msFa (trRecv tr)) (map (fun e => e - lo) (flat_map msEl (trRecv tr))).
Definition pa4 (lo : nat) (p : partition) : acc4 := mkA4 (sFas p) (map (fun e => e - lo) (sEls p)) (rFas p) (map (fun e => e - lo) (rEls p)).
Definition nil4 : acc4 := mkA4 [] [] [] [].
Lemma app4_nil X : app4 X nil4 = X.
Proof. destruct X. unfold app4. cbn. now rewrite !app_nil_r. Qed.
Lemma app4_assoc X Y Z : app4 (app4 X Y) Z = app4 X (app4 Y Z).
Proof. unfold app4. cbn. now rewrite !app_assoc. Qed.

Lemma nth_firstn_S (l : list nat) j d : j < length l -> firstn (S j) l = firstn j l ++ [nth j l d].
Proof. intros H. apply firstn_S_snoc. now apply nth_error_nth'. Qed.

Lemma msgLoop lo N id o X tr ms se re : at4 N id o X -> nth_error (trSend tr) ms = Some se -> nth_error (trRecv tr) ms = Some re ->
  length (msFa se) = length (msEl se) -> length (msEl re) = length (msEl se) -> length (msFa re) = length (msEl se) ->
  (forall el, In el (msEl se) \/ In el (msEl re) -> lo <= el) -> id + length (msEl se) <= N ->
  exists o', for_ 0 (length (msFa se)) (fun en s =>
          let '(id, o) := s in
          f <- rd (msFa se) en ;; sF <- wr (sendFa o) id f ;;
          e <- rd (msEl se) en ;; e <- sub_ e lo ;; sE <- wr (sendEl o) id e ;;
          re <- rd (trRecv tr) ms ;;
          f <- rd (msFa re) en ;; rF <- wr (recvFa o) id f ;;
          e <- rd (msEl re) en ;; e <- sub_ e lo ;; rE <- wr (recvEl o) id e ;;
          Ok (id + 1, mkSeRe sF sE rF rE)) (id, o) = Ok (id + length (msEl se), o') /\ at4 N (id + length (msEl se)) o' (app4 X (msg4 lo se re)).
Proof.
  intros A Hse Hre L1 L2 L3 HLo HN.
  loop (fun j (s : nat * seRe) => fst s = id + j /\ at4 N (id + j) (snd s) (app4 X (mkA4 (firstn j (msFa se)) (map (fun e => e - lo) (firstn j (msEl se))) (firstn j (msFa re)) (map (fun e => e - lo) (firstn j (msEl re)))))) as (id' & o') E (I1 & I2).
  - lia.
  - cbn [fst snd firstn map]. fold nil4. rewrite app4_nil, Nat.add_0_r. auto.
  - intros j (id' & o') Hj (I1 & I2). cbn [fst snd] in *. subst id'. destruct I2 as (X1 & X2 & X3 & X4 & I2').
    rdn 0. wrn. rdn 0. unfold sub_ at 1. assert (G1 : lo <= nth j (msEl se) 0) by (apply HLo; left; apply nth_In; lia). replace (lo <=? nth j (msEl se) 0) with true by lia. cbn [bind]. wrn.
    rewrite (rd_some _ _ _ Hre). cbn [bind]. rdn 0. wrn. rdn 0. unfold sub_ at 1. assert (G2 : lo <= nth j (msEl re) 0) by (apply HLo; right; apply nth_In; lia). replace (lo <=? nth j (msEl re) 0) with true by lia. cbn [bind]. wrn.
    eexists. split; [reflexivity|]. cbn [fst snd]. split; [lia|]. replace (id + S j) with (id + j + 1) by lia.
    rewrite !(nth_firstn_S _ j 0) by lia. rewrite !map_app. cbn [map].
    match goal with |- at4 _ _ _ (app4 X (mkA4 (?a ++ ?a') (?b ++ ?b') (?c ++ ?c') (?d ++ ?d'))) => change (mkA4 (a ++ a') (b ++ b') (c ++ c') (d ++ d')) with (app4 (mkA4 a b c d) (mkA4 a' b' c' d')) end.
    rewrite <- app4_assoc. apply at4_S; [|lia]. unfold at4. auto.
  - cbn [fst snd] in *. subst id'. rewrite L1 in *. exists o'. split; auto. rewrite <- L1 in I2 at 2. rewrite firstn_all in I2. rewrite <- L2 in I2 at 3. rewrite <- L3 in I2 at 2. 
    rewrite !firstn_all2 in I2 by lia. exact I2.
Qed.

Lemma trLoop lo N id o X tr : at4 N id o X ->
  Forall2 (fun m r => length (msFa m) = length (msEl m) /\ length (msEl r) = length (msEl m) /\ length (msFa r) = length (msEl m) /\
  (forall el, In el (msEl m) \/ In el (msEl r) -> lo <= el)) (trSend tr) (trRecv tr) -> id + length (flat_map msEl (trSend tr)) <= N ->
  exists o', for_ 0 (length (trSend tr)) (fun ms s =>
        se <- rd (trSend tr) ms ;;
        for_ 0 (length (msFa se)) (fun en s =>
          let '(id, o) := s in
          f <- rd (msFa se) en ;; sF <- wr (sendFa o) id f ;;
          e <- rd (msEl se) en ;; e <- sub_ e lo ;; sE <- wr (sendEl o) id e ;;
          re <- rd (trRecv tr) ms ;;
          f <- rd (msFa re) en ;; rF <- wr (recvFa o) id f ;;
          e <- rd (msEl re) en ;; e <- sub_ e lo ;; rE <- wr (recvEl o) id e ;;
          Ok (id + 1, mkSeRe sF sE rF rE)) s) (id, o) = Ok (id + length (flat_map msEl (trSend tr)), o') /\
    at4 N (id + length (flat_map msEl (trSend tr))) o' (app4 X (tr4 lo tr)).
Proof.
  intros A F HN.
  assert (FL : length (trSend tr) = length (trRecv tr)) by (clear - F; induction F; cbn; auto).
  loop (fun j (s : nat * seRe) => fst s = id + length (flat_map msEl (firstn j (trSend tr))) /\ at4 N (fst s) (snd s)
    (app4 X (tr4 lo (mkTr 0 (firstn j (trSend tr)) (firstn j (trRecv tr)))))) as (id' & o') E (I1 & I2).
  - lia.
  - cbn [fst snd firstn flat_map length]. rewrite Nat.add_0_r. split; auto. unfold tr4. cbn [trSend trRecv flat_map map]. fold nil4. now rewrite app4_nil.
  - intros j (id' & o') Hj (I1 & I2). cbn [fst snd] in *. destruct (nth_error (trSend tr) j) as [m|] eqn:Em; [|apply nth_error_None in Em; lia].
    destruct (Forall2_nth _ _ _ _ _ F Em) as (r & Er & L1 & L2 & L3 & L4). rewrite (rd_some _ _ _ Em). cbn [bind].
    assert (LE : length (flat_map msEl (firstn j (trSend tr))) + length (msEl m) <= length (flat_map msEl (trSend tr))).
    { rewrite <- (firstn_skipn (S j) (trSend tr)) at 2. rewrite (firstn_S_snoc _ _ _ Em), !flat_map_app, !app_length. cbn [flat_map]. rewrite app_nil_r. lia. }
    destruct (msgLoop lo N id' o' _ tr j m r I2 Em Er L1 L2 L3 L4 ltac:(lia)) as (o2 & -> & B). exists (id' + length (msEl m), o2). split; [reflexivity|]. cbn [fst snd].
    rewrite (firstn_S_snoc _ _ _ Em), (firstn_S_snoc _ _ _ Er), flat_map_app, app_length. cbn [flat_map]. rewrite app_nil_r. split; [lia|].
    rewrite app4_assoc in B. unfold tr4. cbn [trSend trRecv]. rewrite !flat_map_app, !map_app. cbn [flat_map]. rewrite !app_nil_r. exact B.
  - cbn [fst snd] in *. exists o'. rewrite firstn_all in I1. subst id'. split; auto. rewrite (firstn_all2 (trRecv tr)), !firstn_all in I2 by lia. exact I2.
Qed.

Lemma sEls_app a b : sEls (a ++ b) = sEls a ++ sEls b. Proof. apply flat_map_app. Qed.
Lemma pa4_app lo a b : pa4 lo (a ++ b) = app4 (pa4 lo a) (pa4 lo b).
Proof. unfold pa4, app4, sFas, sEls, rFas, rEls. cbn [a1 a2 a3 a4]. now rewrite !flat_map_app, !map_app. Qed.
Lemma pa4_one lo tr : pa4 lo [tr] = tr4 lo tr.
Proof. unfold pa4, tr4, sFas, sEls, rFas, rEls. cbn [flat_map]. now rewrite !app_nil_r. Qed.

(** Arrays of the partitions [firstn k st]. *)
Definition st4 (nPaEls : list nat) (st : list partition) (k : nat) : acc4 :=
  let loc f := concat (map (fun pa => map (fun e => e - firstEl nPaEls pa) (f (nth pa st []))) (seq 0 k)) in
  mkA4 (flat_map sFas (firstn k st)) (loc sEls) (flat_map rFas (firstn k st)) (loc rEls).

Lemma st4_S nPaEls st k p : nth_error st k = Some p -> st4 nPaEls st (S k) = app4 (st4 nPaEls st k) (pa4 (firstEl nPaEls k) p).
Proof.
  intros Ep. unfold st4, app4, pa4. cbn [a1 a2 a3 a4]. rewrite seq_S, !map_app, !concat_app, (firstn_S_snoc _ _ _ Ep), !flat_map_app. cbn [map concat flat_map plus]. rewrite !app_nil_r, (nth_error_nth _ _ _ Ep). reflexivity.
Qed.

Lemma setSeReElFa_ok nPaEls st N o : length st <= length nPaEls ->
  (forall pa p, nth_error st pa = Some p -> msgsOk (firstEl nPaEls pa) p) ->
  N = list_sum (map (fun p => length (sEls p)) st) ->
  length (sendFa o) = N -> length (sendEl o) = N -> length (recvFa o) = N -> length (recvEl o) = N ->
  exists o', setSeReElFa nPaEls st o = Ok o' /\ at4 N N o' (st4 nPaEls st (length st)).
Proof.
  intros HL HM HN L1 L2 L3 L4. unfold setSeReElFa.
  loop (fun k (s : nat * nat * seRe) => fst (fst s) = list_sum (map (fun p => length (sEls p)) (firstn k st)) /\ snd (fst s) = firstEl nPaEls k /\ at4 N (fst (fst s)) (snd s) (st4 nPaEls st k)) as ((id' & f') & o') E (I1 & I2 & I3).
  - lia.
  - cbn. unfold at4. cbn. auto 20.
  - intros k ((id & f) & o1) Hk (I1 & I2 & I3). cbn [fst snd] in *. destruct (nth_error st k) as [p|] eqn:Ep; [|apply nth_error_None in Ep; lia]. rewrite (rd_some _ _ _ Ep). cbn [bind].
    assert (NS : list_sum (map (fun p => length (sEls p)) (firstn k st)) + length (sEls p) <= N).
    { rewrite HN. rewrite <- (firstn_skipn (S k) st) at 2. rewrite (firstn_S_snoc _ _ _ Ep), !map_app, !list_sum_app. cbn [map]. rewrite list_sum_cons. lia. }
    pose proof (HM k p Ep) as MP. rewrite <- I2 in MP.
    loop (fun i (s : nat * seRe) => fst s = id + length (sEls (firstn i p)) /\ at4 N (fst s) (snd s) (app4 (st4 nPaEls st k) (pa4 f (firstn i p)))) as (id2 & o2) E2 (J1 & J2).
    + lia.
    + cbn [fst snd firstn]. unfold sEls, pa4. cbn [flat_map length sFas sEls rFas rEls map]. fold nil4. rewrite app4_nil, Nat.add_0_r. auto.
    + intros i (id2 & o2) Hi (J1 & J2). cbn [fst snd] in *. destruct (nth_error p i) as [tr|] eqn:Et; [|apply nth_error_None in Et; lia]. rewrite (rd_some _ _ _ Et). cbn [bind].
      assert (PS : length (sEls (firstn i p)) + length (flat_map msEl (trSend tr)) <= length (sEls p)).
      { rewrite <- (firstn_skipn (S i) p) at 2. rewrite (firstn_S_snoc _ _ _ Et), !sEls_app, !app_length. unfold sEls at 3. cbn [flat_map]. rewrite app_nil_r. lia. }
      destruct (trLoop f N id2 o2 _ tr J2 (MP tr (nth_error_In _ _ Et)) ltac:(lia)) as (o3 & -> & B). exists (id2 + length (flat_map msEl (trSend tr)), o3). split; [reflexivity|]. cbn [fst snd].
      rewrite (firstn_S_snoc _ _ _ Et), sEls_app, app_length, pa4_app, pa4_one. unfold sEls at 2. cbn [flat_map]. rewrite app_nil_r. split; [lia|]. rewrite app4_assoc in B. exact B.
    + cbn [fst snd] in *. rewrite firstn_all in *. rdn 0. eexists. split; [reflexivity|]. cbn [fst snd]. rewrite (st4_S _ _ _ _ Ep), <- I2. split; [|split; auto].
      * rewrite (firstn_S_snoc _ _ _ Ep), map_app, list_sum_app. cbn [map]. rewrite list_sum_cons. change (list_sum []) with 0. lia.
      * subst f. unfold firstEl. rewrite (firstn_S_snoc _ _ (nth k nPaEls 0)) by (apply nth_error_nth'; lia). rewrite list_sum_app. cbn. lia.
  - cbn [fst snd] in *. exists o'. rewrite firstn_all in I1. split; auto. rewrite I1, <- HN in I3. exact I3.
Qed.
