(** Proofs about the receivers: effect of the operations on single receivers and on all receivers. *)
From Coq Require Import QArith Qabs Sorted.
From Verif Require Import Util Series Distr Receivers.
Open Scope nat_scope.

Arguments mkRecv {T}. Arguments rId {T}. Arguments rNBuff {T}. Arguments rBuffer {T}. Arguments rBuffTime {T}. Arguments rTime {T}.
Arguments rTg {T}. Arguments rEn {T}. Arguments rEnTg {T}. Arguments rEva {T}. Arguments rFile {T}.
Arguments mkRecvs {T}. Arguments recvL {T}. Arguments spEnToRecv {T}. Arguments buffSize {T}. Arguments freq {T}.

Section P.
Variable T : Type.
Variables (zero : T) (add mul : T -> T -> T).
Variables (nQt nMd nCr : nat).
Local Notation recv := (recv T).
Local Notation recvs := (recvs T).
Local Notation writeOne := (writeOne T zero add mul nQt nMd nCr).
Local Notation writeRecvAll := (writeRecvAll T zero add mul nQt nMd nCr).
Local Notation flush := (flush T nQt nCr).

(** ** Specification of one row *)

(** value of quantity qt and fused simulation cr: the DOFs times the basis functions, summed in ascending order *)
Definition sample (eva dofs : list T) (n qt cr : nat) : T :=
  fold_left (fun acc md => add acc (mul (nth md eva zero) (nth ((qt * nMd + md) * nCr + cr) dofs zero))) (seq 0 n) zero.
(** one row of the output: quantities, for each of them all simulations *)
Definition row (eva dofs : list T) : list T :=
  map (fun p => sample eva dofs nMd (p / nCr) (p mod nCr)) (seq 0 (nQt * nCr)).

(** rows which are in the buffer *)
Definition buffered (r : recv) : list (Q * list T) :=
  map (fun bu => (nth bu (rBuffTime r) 0%Q, map (fun va => nth (bu * (nQt * nCr) + va) (rBuffer r) zero) (seq 0 (nQt * nCr)))) (seq 0 (rNBuff r)).
(** rows in the file followed by those in the buffer *)
Definition log (r : recv) : list (Q * list T) := rFile r ++ buffered r.

Definition wfr (bSize : nat) (r : recv) : Prop :=
  length (rBuffer r) = nQt * nCr * bSize /\ length (rBuffTime r) = bSize /\ rNBuff r <= bSize /\ length (rEva r) = nMd.

(** everything except for buffer, time and file *)
Definition static (r : recv) := (rId r, rTg r, rEn r, rEnTg r, rEva r).

(** *** writeOne *)

Lemma sample_S eva dofs n qt cr : sample eva dofs (S n) qt cr =
  add (sample eva dofs n qt cr) (mul (nth n eva zero) (nth ((qt * nMd + n) * nCr + cr) dofs zero)).
Proof. unfold sample. rewrite seq_snoc, fold_left_app. reflexivity. Qed.

Section WriteBuffer.
Variables (base : nat) (eva dofs old : list T).
Hypothesis LB : base + nQt * nCr <= length old.
Hypothesis LE : length eva = nMd.
Hypothesis LD : length dofs = nQt * nMd * nCr.

(** contents of the buffer within the loops: quantities before qt are complete, values of quantity qt are sums of md terms, for
    simulations before cr of md' terms *)
Definition part (qt : nat) (cur : nat -> option nat) (b : list T) : Prop :=
  length b = length old /\
  (forall p, p < base \/ base + nQt * nCr <= p -> nth p b zero = nth p old zero) /\
  (forall q c, q < nQt -> c < nCr -> nth (base + q * nCr + c) b zero =
     if q <? qt then sample eva dofs nMd q c
     else if q =? qt then match cur c with Some n => sample eva dofs n q c | None => nth (base + q * nCr + c) old zero end
     else nth (base + q * nCr + c) old zero).

Lemma pos_inj q c q' c' : c < nCr -> c' < nCr -> base + q * nCr + c = base + q' * nCr + c' -> q = q' /\ c = c'.
Proof. intros H H' E. assert (q = q') by nia. subst. lia. Qed.

Lemma pos_lt q c : q < nQt -> c < nCr -> base + q * nCr + c < length old.
Proof. intros H H'. assert ((q + 1) * nCr <= nQt * nCr) by (apply Nat.mul_le_mono_r; lia). lia. Qed.
Lemma dof_lt q m c : q < nQt -> m < nMd -> c < nCr -> (q * nMd + m) * nCr + c < nQt * nMd * nCr.
Proof.
  intros H H' H''. assert ((q + 1) * nMd <= nQt * nMd) by (apply Nat.mul_le_mono_r; lia).
  assert ((q * nMd + m + 1) * nCr <= nQt * nMd * nCr) by (apply Nat.mul_le_mono_r; lia). lia.
Qed.

Lemma part_upd qt cur cr v b n : qt < nQt -> cr < nCr -> part qt cur b -> v = sample eva dofs n qt cr ->
  part qt (fun c => if c =? cr then Some n else cur c) (upd b (base + qt * nCr + cr) v).
Proof.
  intros Hq Hc (L & O & I) ->. split; [|split].
  - now rewrite length_upd.
  - intros p Hp. rewrite nth_upd_ne by (assert (base + qt * nCr + cr < base + nQt * nCr) by nia; lia). auto.
  - intros q c Hq' Hc'. destruct (Nat.eq_dec (base + qt * nCr + cr) (base + q * nCr + c)) as [E|NE].
    + apply pos_inj in E as [<- <-]; auto. rewrite nth_upd_eq by (rewrite L; apply pos_lt; auto). rewrite Nat.ltb_irrefl, !Nat.eqb_refl. reflexivity.
    + rewrite nth_upd_ne by auto. rewrite I by auto. destruct (q <? qt); auto. destruct (Nat.eqb_spec q qt) as [->|]; auto.
      destruct (Nat.eqb_spec c cr) as [->|]; auto. congruence.
Qed.

Lemma part_ext qt cur cur' b : (forall c, c < nCr -> cur c = cur' c) -> part qt cur b -> part qt cur' b.
Proof.
  intros E (L & O & I). split; [auto|split; [auto|]]. intros q c Hq Hc. rewrite I by auto. rewrite E by auto. reflexivity.
Qed.

Lemma part_len qt cur b : part qt cur b -> length b = length old.
Proof. intros (L & _). auto. Qed.

Lemma write_loop : exists b,
  for_ 0 nQt (fun qt b =>
    b <- for_ 0 nCr (fun cr b => wr b (base + qt * nCr + cr) zero) b;;
    for_ 0 nMd (fun md b =>
      for_ 0 nCr (fun cr b =>
        e <- rd eva md;;
        d <- rd dofs ((qt * nMd + md) * nCr + cr);;
        v <- rd b (base + qt * nCr + cr);;
        wr b (base + qt * nCr + cr) (add v (mul e d))) b) b) old = Ok b /\ part nQt (fun _ => None) b.
Proof.
  apply (for_ok (fun qt b => part qt (fun _ => None) b)); [lia| |].
  - split; [auto|split; [auto|]]. intros q c Hq Hc. cbn. destruct (q =? 0); auto.
  - intros qt b Hqt I.
    destruct (for_ok (fun cr b => part qt (fun c => if c <? cr then Some 0 else None) b) 0 nCr (fun cr b => wr b (base + qt * nCr + cr) zero) b) as (b1 & E1 & I1); [lia| | |].
    { eapply part_ext; [|exact I]. intros c Hc. reflexivity. }
    { intros cr b' Hcr I'. rewrite wr_ok by (rewrite (part_len _ _ _ I'); apply pos_lt; lia). eexists. split; [reflexivity|].
      eapply part_ext; [|apply (part_upd qt _ cr _ b' 0 ltac:(lia) ltac:(lia) I')]; [|reflexivity].
      intros c Hc. cbv beta. destruct (Nat.eqb_spec c cr), (Nat.ltb_spec c cr), (Nat.ltb_spec c (S cr)); auto; lia. }
    rewrite E1. cbn [bind]. clear E1.
    destruct (for_ok (fun md b => part qt (fun c => Some md) b) 0 nMd (fun md b =>
      for_ 0 nCr (fun cr b =>
        e <- rd eva md;;
        d <- rd dofs ((qt * nMd + md) * nCr + cr);;
        v <- rd b (base + qt * nCr + cr);;
        wr b (base + qt * nCr + cr) (add v (mul e d))) b) b1) as (b2 & E2 & I2); [lia| | |].
    { eapply part_ext; [|exact I1]. intros c Hc. cbv beta. destruct (Nat.ltb_spec c nCr); auto; lia. }
    { intros md b' Hmd I'.
      destruct (for_ok (fun cr b => part qt (fun c => if c <? cr then Some (S md) else Some md) b) 0 nCr (fun cr b =>
        e <- rd eva md;;
        d <- rd dofs ((qt * nMd + md) * nCr + cr);;
        v <- rd b (base + qt * nCr + cr);;
        wr b (base + qt * nCr + cr) (add v (mul e d))) b') as (b3 & E3 & I3); [lia| | |].
      { eapply part_ext; [|exact I']. intros c Hc. reflexivity. }
      { intros cr b4 Hcr I4. assert (L4 := part_len _ _ _ I4). rewrite (rd_ok eva md zero) by lia. cbn [bind].
        rewrite (rd_ok dofs _ zero) by (rewrite LD; apply dof_lt; lia). cbn [bind]. rewrite (rd_ok b4 _ zero) by (rewrite L4; apply pos_lt; lia). cbn [bind].
        rewrite wr_ok by (rewrite L4; apply pos_lt; lia). eexists. split; [reflexivity|].
        eapply part_ext; [|apply (part_upd qt _ cr _ b4 (S md) ltac:(lia) ltac:(lia) I4)].
        - intros c Hc. cbv beta. destruct (Nat.eqb_spec c cr), (Nat.ltb_spec c cr), (Nat.ltb_spec c (S cr)); auto; lia.
        - rewrite sample_S. destruct I4 as (_ & _ & I4). rewrite I4 by lia. rewrite Nat.ltb_irrefl, Nat.eqb_refl. rewrite Nat.ltb_irrefl. reflexivity. }
      exists b3. split; [exact E3|]. eapply part_ext; [|exact I3]. intros c Hc. cbv beta. destruct (Nat.ltb_spec c nCr); auto; lia. }
    exists b2. split; [exact E2|]. destruct I2 as (L & O & I2). split; [auto|split; [auto|]]. intros q c Hq Hc. rewrite I2 by auto.
    destruct (Nat.ltb_spec q qt), (Nat.eqb_spec q qt), (Nat.ltb_spec q (S qt)), (Nat.eqb_spec q (S qt)); auto; try lia.
Qed.
End WriteBuffer.

(** a receiver after writing *)
Definition wrote (fr : Q) (dofs : list T) (r r' : recv) : Prop :=
  static r' = static r /\ rTime r' = (rTime r + fr)%Q /\ rFile r' = rFile r /\ rNBuff r' = rNBuff r + 1 /\
  buffered r' = buffered r ++ [(rTime r, row (rEva r) dofs)].

Lemma writeOne_ok bSize fr dofs r : wfr bSize r -> length dofs = nQt * nMd * nCr -> rNBuff r < bSize ->
  exists r', writeOne bSize fr dofs r = Ok r' /\ wfr bSize r' /\ wrote fr dofs r r'.
Proof.
  intros (W1 & W2 & W3 & W4) LD C. unfold Receivers.writeOne. apply Nat.ltb_lt in C as C'. rewrite C'. cbn [check bind].
  destruct (write_loop (rNBuff r * nQt * nCr) (rEva r) dofs (rBuffer r)) as (b & E & I); auto.
  { rewrite W1. nia. }
  rewrite E. cbn [bind]. rewrite wr_ok by lia. cbn [bind]. eexists. split; [reflexivity|].
  destruct I as (L & O & I). split.
  - unfold wfr. cbn. rewrite L, length_upd. repeat split; auto; lia.
  - unfold wrote. cbn [rTime rFile rNBuff]. split; [reflexivity|]. split; [reflexivity|]. split; [reflexivity|]. split; [reflexivity|].
    unfold buffered. cbn [rNBuff rBuffTime rBuffer]. rewrite Nat.add_1_r, seq_snoc, map_app. f_equal.
    + apply map_ext_in. intros bu Hbu. apply in_seq in Hbu. rewrite nth_upd_ne by lia. f_equal. apply map_ext_in. intros va Hva. apply in_seq in Hva. apply O. nia.
    + cbn. rewrite nth_upd_eq by lia. f_equal. f_equal. unfold row. apply map_ext_in. intros va Hva. apply in_seq in Hva.
      assert (nCr <> 0) by nia.
      assert (D := Nat.div_mod va nCr H). assert (va mod nCr < nCr) by (apply Nat.mod_upper_bound; auto). assert (va / nCr < nQt) by (apply Nat.div_lt_upper_bound; nia).
      replace (rNBuff r * (nQt * nCr) + va) with (rNBuff r * nQt * nCr + va / nCr * nCr + va mod nCr) by nia.
      rewrite I by auto. apply Nat.ltb_lt in H1. rewrite H1. reflexivity.
Qed.

Lemma writeOne_full bSize fr dofs r r' : writeOne bSize fr dofs r = Ok r' -> rNBuff r < bSize.
Proof. unfold Receivers.writeOne. destruct (Nat.ltb_spec (rNBuff r) bSize); auto. discriminate. Qed.

Lemma wrote_log fr dofs r r' : wrote fr dofs r r' -> log r' = log r ++ [(rTime r, row (rEva r) dofs)].
Proof. intros (_ & _ & F & _ & B). unfold log. rewrite F, B. rewrite app_assoc. reflexivity. Qed.

(** *** flush *)
Definition flushed (r : recv) : recv :=
  mkRecv (rId r) 0 (rBuffer r) (rBuffTime r) (rTime r) (rTg r) (rEn r) (rEnTg r) (rEva r) (log r).

Lemma flush_ok bSize r : wfr bSize r -> flush r = Ok (flushed r).
Proof.
  intros (W1 & W2 & W3 & W4). unfold Receivers.flush. 
  assert (E : (if 0 <? rNBuff r then for_ 0 (rNBuff r) (fun bu f =>
            t <- rd (rBuffTime r) bu;;
            vs <- for_ 0 (nQt * nCr) (fun va vs => v <- rd (rBuffer r) (bu * (nQt * nCr) + va);; Ok (vs ++ [v])) [];;
            Ok (f ++ [(t, vs)])) (rFile r) else Ok (rFile r)) = Ok (log r)).
  2:{ rewrite E. reflexivity. }
  destruct (Nat.ltb_spec 0 (rNBuff r)) as [H|H].
  2:{ unfold log, buffered. replace (rNBuff r) with 0 by lia. cbn. rewrite app_nil_r. reflexivity. }
  match goal with |- for_ 0 _ ?bd _ = _ => 
    destruct (for_ok (fun n f => f = rFile r ++ map (fun bu => (nth bu (rBuffTime r) 0%Q, map (fun va => nth (bu * (nQt * nCr) + va) (rBuffer r) zero) (seq 0 (nQt * nCr)))) (seq 0 n)) 0 (rNBuff r) bd (rFile r)) as (f & E & I) end; [lia| | |].
  - cbn. rewrite app_nil_r. reflexivity.
  - intros bu f Hbu ->. rewrite (rd_ok _ bu 0%Q) by lia. cbn [bind].
    match goal with |- context [for_ 0 (nQt * nCr) ?bd []] => 
      destruct (for_ok (fun n vs => vs = map (fun va => nth (bu * (nQt * nCr) + va) (rBuffer r) zero) (seq 0 n)) 0 (nQt * nCr) bd []) as (vs & E & I) end; [lia|reflexivity| |].
    + intros va vs Hva ->. rewrite (rd_ok _ _ zero) by (rewrite W1; nia). cbn [bind]. eexists. split; [reflexivity|]. rewrite seq_snoc, map_app. reflexivity.
    + rewrite E. cbn [bind]. eexists. split; [reflexivity|]. rewrite I, seq_snoc, map_app, app_assoc. reflexivity.
  - rewrite E, I. reflexivity.
Qed.

Lemma flushed_log r : log (flushed r) = log r.
Proof. unfold log at 1, buffered. cbn. rewrite app_nil_r. reflexivity. Qed.

Lemma flushed_wfr bSize r : wfr bSize r -> wfr bSize (flushed r).
Proof. intros (W1 & W2 & W3 & W4). unfold wfr, flushed. cbn. repeat split; auto; lia. Qed.

(** ** All receivers *)

(** structure of the receivers: [ens] are the entities with receivers; the receivers of entity number i start at spEnToRecv[i] *)
Definition segs (ens : list nat) (st : recvs) : Prop :=
  length (spEnToRecv st) = length ens /\
  forall i e, nth_error ens i = Some e -> exists a, nth_error (spEnToRecv st) i = Some a /\
    a < nth (S i) (spEnToRecv st) (length (recvL st)) <= length (recvL st) /\
    forall p r, nth_error (recvL st) p = Some r -> (rEn r = e <-> a <= p < nth (S i) (spEnToRecv st) (length (recvL st))).

Definition wf (ens : list nat) (st : recvs) : Prop := segs ens st /\ Forall (wfr (buffSize st)) (recvL st).

(** nothing but buffer, time and file of receivers changes *)
Definition frame (st st' : recvs) : Prop :=
  spEnToRecv st' = spEnToRecv st /\ buffSize st' = buffSize st /\ freq st' = freq st /\ map static (recvL st') = map static (recvL st).

Lemma map_static_nth l l' p r : map static l' = map static l -> nth_error l p = Some r -> exists r', nth_error l' p = Some r' /\ static r' = static r.
Proof.
  intros E H. assert (X : nth_error (map static l) p = Some (static r)) by (rewrite nth_error_map, H; reflexivity).
  rewrite <- E, nth_error_map in X. destruct (nth_error l' p) as [r'|]; [|discriminate]. exists r'. split; auto. cbn in X. congruence.
Qed.

Lemma segs_frame ens st st' : frame st st' -> segs ens st -> segs ens st'.
Proof.
  intros (F1 & F2 & F3 & F4) (S1 & S2). assert (L : length (recvL st') = length (recvL st)) by (rewrite <- (map_length static), F4; apply map_length).
  unfold segs. rewrite F1, L. split; [auto|]. intros i e H. destruct (S2 i e H) as (a & A1 & A2 & A3). exists a. split; [auto|split; [auto|]].
  intros p r Hr. destruct (map_static_nth _ _ p r (eq_sym F4) Hr) as (r' & R1 & R2). rewrite <- (A3 p r' R1). unfold static in R2. assert (rEn r' = rEn r) by congruence. rewrite H0. reflexivity.
Qed.

Lemma map_upd {A B} (f : A -> B) l i x : f x = nth i (map f l) (f x) -> map f (upd l i x) = map f l.
Proof.
  revert i. induction l as [|y l IH]; intros [|i] H; cbn in *; auto.
  - congruence.
  - f_equal. auto.
Qed.

(** pointwise effect of an operation *)
Definition pointwise (R : recv -> recv -> Prop) (l l' : list recv) : Prop := Forall2 R l l'.

Lemma forall2_nth {A B} (R : A -> B -> Prop) l l' : length l = length l' -> (forall p x y, nth_error l p = Some x -> nth_error l' p = Some y -> R x y) -> Forall2 R l l'.
Proof.
  revert l'. induction l as [|x l IH]; intros [|y l'] L H; cbn in L; try discriminate; constructor.
  - apply (H 0); reflexivity.
  - apply IH; [congruence|]. intros p. apply (H (S p)).
Qed.

Lemma forall2_nth_l {A B} (R : A -> B -> Prop) l l' p x : Forall2 R l l' -> nth_error l p = Some x -> exists y, nth_error l' p = Some y /\ R x y.
Proof. intros F. revert p. induction F as [|a b l l' H F IH]; intros [|p] E; cbn in *; try discriminate; [inversion E; subst; eauto|auto]. Qed.

Lemma nth_error_lt {A} (l : list A) p x : nth_error l p = Some x -> p < length l.
Proof. intros H. apply nth_error_Some. congruence. Qed.

Lemma Forall_upd {A} (Q : A -> Prop) l i x : Forall Q l -> Q x -> Forall Q (upd l i x).
Proof. intros F H. revert i. induction F; intros [|i]; cbn; constructor; auto. Qed.

(** loop of writeRecvAll from position re on; the segment [re, hi) holds the receivers of entity e *)
Lemma write_seg bSize fr dofs e hi : length dofs = nQt * nMd * nCr -> forall n re l, Forall (wfr bSize) l -> re + n = length l -> re <= hi <= length l ->
  (forall p r, nth_error l p = Some r -> re <= p -> (rEn r = e <-> p < hi)) ->
  let run := forb_n n re (fun re l => r <- rd l re;;
    if rEn r =? e then r' <- writeOne bSize fr dofs r;; l' <- wr l re r';; Ok (l', false) else Ok (l, true)) l in
  ((forall p r, nth_error l p = Some r -> re <= p < hi -> rNBuff r < bSize) ->
   exists l', run = Ok l') /\
  (forall l', run = Ok l' -> Forall (wfr bSize) l' /\ length l' = length l /\
    forall p r r', nth_error l p = Some r -> nth_error l' p = Some r' -> if (re <=? p) && (p <? hi) then wrote fr dofs r r' else r' = r).
Proof.
  intros LD. induction n as [|n IH]; intros re l W L Hh SEG run; subst run; cbn [forb_n].
  - split; [eauto|]. intros l' E. inversion E; subst l'. split; [auto|]. split; [auto|]. intros p r r' H1 H2. assert (p < length l) by (eapply nth_error_lt; eauto).
    destruct (Nat.leb_spec re p); cbn [andb]; [lia|congruence].
  - destruct (nth_error l re) as [r|] eqn:ER; [|apply nth_error_None in ER; lia]. rewrite (rd_some _ _ _ ER). cbn [bind].
    assert (Wr : wfr bSize r) by (rewrite Forall_forall in W; apply W; eapply nth_error_In; eauto).
    destruct (Nat.eqb_spec (rEn r) e) as [Ee|Ne].
    + assert (re < hi) by (apply (SEG re r ER); auto).
      split.
      * intros C. assert (C0 : rNBuff r < bSize) by (apply (C re); auto; lia). destruct (writeOne_ok bSize fr dofs r Wr LD C0) as (r' & E & W' & Wt). rewrite E. cbn [bind]. rewrite wr_ok by lia. cbn [bind].
        apply (proj1 (IH (S re) (upd l re r') ltac:(apply Forall_upd; auto) ltac:(rewrite length_upd; lia) ltac:(rewrite length_upd; lia)
          ltac:(intros p x Hp Hle; rewrite nth_error_upd_ne in Hp by lia; apply (SEG p x); auto; lia))).
        intros p x Hp Hle. rewrite nth_error_upd_ne in Hp by lia. apply (C p); auto. lia.
      * intros l' E. apply bind_ok in E as (? & E & E2). apply bind_ok in E as (r' & E & E3). assert (C0 := writeOne_full _ _ _ _ _ E). destruct (writeOne_ok bSize fr dofs r Wr LD C0) as (r'' & E' & W' & Wt).
        rewrite E in E'. inversion E'; subst r''. clear E'. rewrite wr_ok in E3 by lia. cbn [bind] in E3. inversion E3; subst x. clear E3.
        specialize (IH (S re) (upd l re r')). destruct IH as [_ IH].
        { apply Forall_upd; auto. }
        { rewrite length_upd; lia. }
        { rewrite length_upd; lia. }
        { intros p x Hp Hle. rewrite nth_error_upd_ne in Hp by lia. apply (SEG p x); auto; lia. }
        destruct (IH l' E2) as (I1 & I2 & I3). split; [auto|]. split; [rewrite I2; apply length_upd|].
        intros p x x' Hp Hp'. destruct (Nat.eq_dec re p) as [<-|Np].
        -- assert (Some x = Some r) by congruence. inversion H0; subst x. specialize (I3 re r' x'). rewrite nth_error_upd_eq in I3 by lia. specialize (I3 eq_refl Hp').
           destruct (Nat.leb_spec (S re) re); [lia|]. cbn [andb] in I3. subst x'. destruct (Nat.leb_spec re re); [|lia]. destruct (Nat.ltb_spec re hi); [|lia]. auto.
        -- specialize (I3 p x x'). rewrite nth_error_upd_ne in I3 by auto. specialize (I3 Hp Hp'). destruct (Nat.leb_spec (S re) p), (Nat.leb_spec re p); auto; lia.
    + split; [cbn; eauto|]. cbn [bind]. intros l' E. inversion E; subst l'. split; [auto|]. split; [auto|]. intros p x x' H1 H2. assert (x' = x) by congruence. subst x'.
      assert (hi <= re). { destruct (Nat.le_gt_cases hi re); auto. exfalso. apply Ne. apply (SEG re r ER); auto. }
      destruct (Nat.leb_spec re p), (Nat.ltb_spec p hi); cbn [andb]; auto; lia.
Qed.

Lemma nth_error_nth_lt {A} (l : list A) i x d : nth_error l i = Some x -> nth i l d = x.
Proof. intros. apply nth_error_nth. auto. Qed.

(** writeRecvAll writes to exactly the receivers of the entity *)
Lemma writeRecvAll_spec ens st i e dofs : wf ens st -> nth_error ens i = Some e -> length dofs = nQt * nMd * nCr ->
  ((forall r, In r (recvL st) -> rEn r = e -> rNBuff r < buffSize st) -> exists st', writeRecvAll i dofs st = Ok st') /\
  (forall st', writeRecvAll i dofs st = Ok st' -> wf ens st' /\ frame st st' /\
    Forall2 (fun r r' => if rEn r =? e then wrote (freq st) dofs r r' else r' = r) (recvL st) (recvL st')).
Proof.
  intros ((S1 & S2) & W) He LD. destruct (S2 i e He) as (a & A1 & A2 & A3). unfold Receivers.writeRecvAll.
  assert (Hi : i < length (spEnToRecv st)) by (eapply nth_error_lt; eauto). apply Nat.ltb_lt in Hi as Hi'. rewrite Hi'. cbn [check bind].
  rewrite (rd_some _ _ _ A1). cbn [bind]. set (hi := nth (S i) (spEnToRecv st) (length (recvL st))) in *.
  assert (Ha : a <? length (recvL st) = true) by (apply Nat.ltb_lt; lia). rewrite Ha. cbn [check bind].
  destruct (nth_error (recvL st) a) as [r0|] eqn:E0; [|apply nth_error_None in E0; lia]. rewrite (rd_some _ _ _ E0). cbn [bind].
  assert (En0 : rEn r0 = e) by (apply (A3 a r0 E0); lia). rewrite En0. unfold forb.
  destruct (write_seg (buffSize st) (freq st) dofs e hi LD (length (recvL st) - a) a (recvL st) W ltac:(lia) ltac:(lia)) as [X1 X2].
  { intros p r Hr Hp. rewrite (A3 p r Hr). lia. }
  cbv zeta in X1, X2. split.
  - intros C. destruct X1 as (l' & E).
    { intros p r Hp Hr. apply C; [eapply nth_error_In; eauto|]. apply (A3 p r Hp). auto. }
    rewrite E. cbn [bind]. eauto.
  - intros st' E. apply bind_ok in E as (l' & E & E'). inversion E'; subst st'; clear E'. destruct (X2 l' E) as (I1 & I2 & I3).
    assert (F2 : Forall2 (fun r r' => if rEn r =? e then wrote (freq st) dofs r r' else r' = r) (recvL st) l').
    { apply forall2_nth; [auto|]. intros p x y H1 H2. specialize (I3 p x y H1 H2). assert (X := A3 p x H1).
      destruct (Nat.eqb_spec (rEn x) e), (Nat.leb_spec a p), (Nat.ltb_spec p hi); cbn [andb] in I3; auto; lia. }
    assert (FR : frame st (mkRecvs l' (spEnToRecv st) (buffSize st) (freq st))).
    { repeat split; auto. cbn [recvL]. clear - F2. induction F2 as [|x y l l' H F IH]; cbn; [auto|]. f_equal; [|auto]. destruct (rEn x =? e); [apply H|congruence]. }
    split; [|split; auto]. split; [eapply segs_frame; eauto; split; auto|]. cbn. auto.
Qed.

(** flushes *)
Lemma flushes_spec (b : recv -> bool) ens st : wf ens st -> exists l',
  for_ 0 (length (recvL st)) (fun re l => r <- rd l re;; if b r then r' <- flush r;; wr l re r' else Ok l) (recvL st) = Ok l' /\
  l' = map (fun r => if b r then flushed r else r) (recvL st).
Proof.
  intros (SG & W). set (f := fun r => if b r then flushed r else r).
  match goal with |- exists l', for_ 0 _ ?bd _ = _ /\ _ =>
    destruct (for_ok (fun k l => l = map f (firstn k (recvL st)) ++ skipn k (recvL st)) 0 (length (recvL st)) bd (recvL st)) as (l' & E & I) end; [lia|reflexivity| |].
  - intros k l Hk ->. destruct (nth_error (recvL st) k) as [r|] eqn:ER; [|apply nth_error_None in ER; lia].
    assert (LK : length (map f (firstn k (recvL st))) = k) by (rewrite map_length, firstn_length; lia).
    assert (SK : skipn k (recvL st) = r :: skipn (S k) (recvL st)).
    { assert (X := skipn_cons k (recvL st)). clear - ER. revert k ER. induction (recvL st) as [|y l IH]; intros [|k] E; cbn in *; try discriminate; [congruence|auto]. }
    assert (RD : rd (map f (firstn k (recvL st)) ++ skipn k (recvL st)) k = Ok r).
    { apply rd_some. rewrite nth_error_app2 by lia. rewrite LK, Nat.sub_diag, SK. reflexivity. }
    rewrite RD. cbn [bind]. assert (Wr : wfr (buffSize st) r) by (rewrite Forall_forall in W; apply W; eapply nth_error_In; eauto).
    rewrite (firstn_S_snoc _ _ _ ER), map_app. cbn [map]. assert (Ef : f r = if b r then flushed r else r) by reflexivity. rewrite Ef. destruct (b r) eqn:Eb.
    + rewrite (flush_ok _ _ Wr). cbn [bind]. rewrite wr_ok by (rewrite app_length, LK, skipn_length; lia). eexists. split; [reflexivity|].
      rewrite SK. rewrite upd_app_at by auto. rewrite <- app_assoc. reflexivity.
    + eexists. split; [reflexivity|]. rewrite SK, <- app_assoc. reflexivity.
  - exists l'. split; [auto|]. rewrite I, firstn_all, skipn_all, app_nil_r. reflexivity.
Qed.

Lemma flush_frame (b : recv -> bool) ens st : wf ens st -> let st' := mkRecvs (map (fun r => if b r then flushed r else r) (recvL st)) (spEnToRecv st) (buffSize st) (freq st) in
  wf ens st' /\ frame st st'.
Proof.
  intros (SG & W) st'. assert (FR : frame st st').
  { repeat split. subst st'. cbn. rewrite map_map. apply map_ext. intros r. destruct (b r); reflexivity. }
  split; [|auto]. split; [eapply segs_frame; eauto|]. subst st'. cbn. apply Forall_map. eapply Forall_impl; [|exact W]. intros r Hr. cbn. destruct (b r); [apply flushed_wfr|]; auto.
Qed.

End P.
