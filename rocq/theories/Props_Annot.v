(** Properties of the annotations which the preprocessor writes for the ranks of the solver: C29 (encoding), C49. *)
From Coq Require Import Permutation Sorted.
From Verif Require Import Util SharedProofs Distr Props_Distr Lts Props_Lts Groups Props_Groups Partition Comm Props_Part CommProofs Props_Comm.
Open Scope nat_scope.

(** * Specification *)

(** Partitions of the elements if partition [pa] has [at_ nPaEls pa] elements. *)
Definition partOf (nPaEls : list nat) : list nat := flat_map (fun pa => repeat pa (at_ nPaEls pa)) (seq 0 (length nPaEls)).

Definition slice {A} (l : list A) (o n : nat) : list A := firstn n (skipn o l).

(** Input of the preprocessor's communication: the mesh is in the order of C27, the last partition is not empty. *)
Record annotIn (nTgs nElFas nEls : nat) (elFaEl : list (option nat)) (nPaEls elTg : list nat) : Prop := mkAnnotIn {
  ai_mesh : meshIn nElFas nEls elFaEl (partOf nPaEls) elTg;
  ai_last : 0 < last nPaEls 0;
  ai_tg : forall el, el < nEls -> at_ elTg el < nTgs }.

(** Adjacency in the mesh of a rank with the elements [first, first+n): elements of other ranks are missing. *)
Definition localAdj (nElFas : nat) (elFaEl : list (option nat)) (first n : nat) : list (option nat) :=
  map (fun k => match nth_error elFaEl (first * nElFas + k) with
                | Some (Some ad) => if (first <=? ad) && (ad <? first + n) then Some (ad - first) else None
                | _ => None end) (seq 0 (n * nElFas)).

(** * Proofs *)

(** ** Partitions *)
Lemma firstEl_S l k : k < length l -> firstEl l (S k) = firstEl l k + at_ l k.
Proof. intros H. unfold firstEl. rewrite (firstn_S_snoc _ _ (at_ l k)) by (apply nth_error_nth'; auto). rewrite list_sum_app. cbn. lia. Qed.
Lemma firstEl_all l : firstEl l (length l) = list_sum l.
Proof. unfold firstEl. now rewrite firstn_all. Qed.
Lemma firstEl_mono l a b : a <= b -> firstEl l a <= firstEl l b.
Proof. apply sum_mono. Qed.

Lemma partTo_length l k : k <= length l -> length (flat_map (fun pa => repeat pa (at_ l pa)) (seq 0 k)) = firstEl l k.
Proof.
  induction k as [|k IH]; intros H; [reflexivity|]. rewrite seq_S, flat_map_app, app_length, IH, firstEl_S by lia. cbn [flat_map plus]. rewrite app_nil_r, repeat_length. reflexivity.
Qed.
Lemma partOf_length l : length (partOf l) = list_sum l.
Proof. unfold partOf. rewrite partTo_length, firstEl_all by lia. reflexivity. Qed.

Lemma partOf_at l p el : p < length l -> firstEl l p <= el < firstEl l (S p) -> at_ (partOf l) el = p.
Proof.
  intros Hp H. rewrite firstEl_S in H by auto. unfold partOf. replace (length l) with (p + S (length l - S p)) by lia. rewrite seq_app, flat_map_app. cbn [plus seq flat_map].
  unfold at_ at 1. rewrite app_nth2; rewrite partTo_length by lia; [|lia]. rewrite app_nth1 by (rewrite repeat_length; lia).
  apply (nth_error_nth _ _). rewrite nth_error_nth' with (d := p) by (rewrite repeat_length; lia). f_equal. generalize (el - firstEl l p). generalize (at_ l p). clear.
  induction n as [|n IH]; intros [|k]; cbn; auto.
Qed.
Lemma find_part l el : el < list_sum l -> exists p, p < length l /\ firstEl l p <= el < firstEl l (S p).
Proof.
  revert el. induction l as [|x l IH]; intros el H; [cbn in H; lia|]. rewrite list_sum_cons in H. destruct (lt_dec el x) as [L|L].
  - exists 0. unfold firstEl. cbn. lia.
  - destruct (IH (el - x) ltac:(lia)) as (p & P1 & P2). exists (S p). unfold firstEl in *. change (firstn (S (S p)) (x :: l)) with (x :: firstn (S p) l). change (firstn (S p) (x :: l)) with (x :: firstn p l).
    rewrite !list_sum_cons. cbn [length]. lia.
Qed.
Lemma partOf_iff l p el : el < list_sum l -> at_ (partOf l) el = p <-> p < length l /\ firstEl l p <= el < firstEl l (S p).
Proof.
  intros H. destruct (find_part l el H) as (q & Q1 & Q2). split.
  - intros <-. rewrite (partOf_at l q) by auto. auto.
  - intros (P1 & P2). now apply partOf_at.
Qed.

Lemma elPas_ok nEls l garbage : length garbage = nEls -> list_sum l = nEls -> elPas nEls (length l) l garbage = Ok (partOf l).
Proof.
  intros LG LS. unfold elPas.
  loop (fun k (s : list nat * nat) => length (fst s) = nEls /\ snd s = firstEl l k /\ firstn (snd s) (fst s) = flat_map (fun pa => repeat pa (at_ l pa)) (seq 0 k)) as (o & f) E (A1 & A2 & A3).
  - lia.
  - cbn. auto.
  - intros k (o & f) Hk (A1 & A2 & A3). cbn [fst snd] in *. rdn 0. fold (at_ l k). pose proof (firstEl_S l k ltac:(lia)) as FS. pose proof (firstEl_mono l (S k) (length l) ltac:(lia)) as FM. rewrite firstEl_all in FM.
    replace (f + at_ l k <=? nEls) with true by lia. cbn [check bind].
    loop (fun j (o' : list nat) => length o' = nEls /\ firstn j o' = firstn f o ++ repeat k (j - f)) as o' E (B1 & B2).
    + lia.
    + split; [auto|]. rewrite Nat.sub_diag. cbn. now rewrite app_nil_r.
    + intros j o' Hj (B1 & B2). wrn. eexists. split; [reflexivity|]. rewrite length_upd. split; [auto|]. rewrite firstn_upd by lia. rewrite B2. replace (S j - f) with (j - f + 1) by lia. rewrite repeat_app, app_assoc. reflexivity.
    + eexists. split; [reflexivity|]. cbn [fst snd]. split; [auto|]. split; [lia|]. rewrite B2, A3, seq_S, flat_map_app. cbn [plus flat_map]. rewrite app_nil_r. do 2 f_equal. lia.
  - cbn [fst snd] in *. rewrite A2, firstEl_all, LS, <- A1, firstn_all in A3. now rewrite A3.
Qed.

(** ** Messages *)
Definition mTr (x : nat * message * message) := fst (fst x).
Definition mSe (x : nat * message * message) := snd (fst x).
Definition mRe (x : nat * message * message) := snd x.
Definition msgs (p : partition) : list (nat * message * message) :=
  flat_map (fun tr => map (fun mr => (trTg tr, fst mr, snd mr)) (combine (trSend tr) (trRecv tr))) p.

Lemma flat_map_map {A B C} (f : B -> list C) (g : A -> B) l : flat_map f (map g l) = flat_map (fun x => f (g x)) l.
Proof. induction l as [|x l IH]; auto. cbn [map flat_map]. now rewrite IH. Qed.
Lemma combine_fst {A B C} (f : A -> list C) (l : list A) (l' : list B) : length l = length l' -> flat_map (fun x => f (fst x)) (combine l l') = flat_map f l.
Proof. revert l'. induction l as [|a l IH]; intros [|b l'] H; try discriminate; auto. cbn [combine flat_map fst]. rewrite IH; auto. Qed.
Lemma combine_snd {A B C} (f : B -> list C) (l : list A) (l' : list B) : length l = length l' -> flat_map (fun x => f (snd x)) (combine l l') = flat_map f l'.
Proof. revert l'. induction l as [|a l IH]; intros [|b l'] H; try discriminate; auto. cbn [combine flat_map snd]. rewrite IH; auto. Qed.
Lemma combine_fst_map {A B C} (f : A -> C) (l : list A) (l' : list B) : length l = length l' -> map (fun x => f (fst x)) (combine l l') = map f l.
Proof. revert l'. induction l as [|a l IH]; intros [|b l'] H; try discriminate; auto. cbn [combine map fst]. rewrite IH; auto. Qed.

Definition even (p : partition) : Prop := forall tr, In tr p -> length (trSend tr) = length (trRecv tr).

Lemma msgs_send {C} (f : message -> list C) p : even p -> flat_map (fun tr => flat_map f (trSend tr)) p = flat_map (fun x => f (mSe x)) (msgs p).
Proof.
  unfold msgs. induction p as [|tr p IH]; intros E; auto. cbn [flat_map]. rewrite flat_map_app, IH by (intros t Ht; apply E; cbn; auto). f_equal. rewrite flat_map_map. unfold mSe. cbn [fst snd]. symmetry. apply combine_fst. apply E. cbn. auto.
Qed.
Lemma msgs_recv {C} (f : message -> list C) p : even p -> flat_map (fun tr => flat_map f (trRecv tr)) p = flat_map (fun x => f (mRe x)) (msgs p).
Proof.
  unfold msgs. induction p as [|tr p IH]; intros E; auto. cbn [flat_map]. rewrite flat_map_app, IH by (intros t Ht; apply E; cbn; auto). f_equal. rewrite flat_map_map. unfold mRe. cbn [fst snd]. symmetry. apply combine_snd. apply E. cbn. auto.
Qed.
Definition chOf (x : nat * message * message) : chan := mkChan (mTr x) (msPa (mSe x)) (msTg (mSe x)) (length (msEl (mSe x))).
Lemma msgs_chans p : even p -> chansOf p = map chOf (msgs p).
Proof.
  unfold msgs, chansOf. induction p as [|tr p IH]; intros E; auto. cbn [flat_map]. rewrite map_app, IH by (intros t Ht; apply E; cbn; auto). f_equal. rewrite map_map. unfold chOf, mTr, mSe. cbn [fst snd]. symmetry.
  apply (combine_fst_map (fun m => mkChan (trTg tr) (msPa m) (msTg m) (length (msEl m)))). apply E. cbn. auto.
Qed.
Lemma msgs_sent p : even p -> sentBy p = flat_map (fun x => map (fun ef => (mTr x, msPa (mSe x), msTg (mSe x), ef)) (combine (msEl (mSe x)) (msFa (mSe x)))) (msgs p).
Proof.
  unfold msgs, sentBy. induction p as [|tr p IH]; intros E; auto. cbn [flat_map]. rewrite flat_map_app, IH by (intros t Ht; apply E; cbn; auto). f_equal. rewrite flat_map_map. unfold mTr, mSe. cbn [fst snd]. symmetry.
  apply (combine_fst (fun m => map (fun ef => (trTg tr, msPa m, msTg m, ef)) (combine (msEl m) (msFa m)))). apply E. cbn. auto.
Qed.
Lemma In_msgs p x : In x (msgs p) -> exists tr i, In tr p /\ trTg tr = mTr x /\ nth_error (trSend tr) i = Some (mSe x) /\ nth_error (trRecv tr) i = Some (mRe x).
Proof.
  unfold msgs. intros H. apply in_flat_map in H as (tr & Ht & H). apply in_map_iff in H as ((m & r) & <- & H). cbn [fst snd mTr mSe mRe]. apply In_nth_error in H as (i & H). exists tr, i. split; auto. split; auto.
  clear Ht. revert i H. generalize (trSend tr) (trRecv tr). induction l as [|a l IH]; intros l' [|i] H; cbn in H; destruct l'; try discriminate; cbn in *; auto. inversion H; subst. auto.
Qed.
Lemma msgs_In p tr i m r : In tr p -> nth_error (trSend tr) i = Some m -> nth_error (trRecv tr) i = Some r -> In (trTg tr, m, r) (msgs p).
Proof.
  intros Ht H1 H2. unfold msgs. apply in_flat_map. exists tr. split; auto. apply in_map_iff. exists (m, r). split; auto. clear Ht. revert i H1 H2. generalize (trSend tr) (trRecv tr).
  induction l as [|a l IH]; intros l' [|i] H1 H2; destruct l'; try discriminate; cbn in *; [left; congruence|right; eauto].
Qed.

(** position of the entries of a message in the concatenated lists *)
Lemma flat_at {A C} (f : A -> list C) (n : A -> nat) l : (forall x, In x l -> length (f x) = n x) -> forall ch x i, nth_error l ch = Some x -> i < n x ->
  nth_error (flat_map f l) (list_sum (map n (firstn ch l)) + i) = nth_error (f x) i.
Proof.
  induction l as [|a l IH]; intros HL [|ch] x i Hx Hi; try discriminate.
  - cbn in Hx. inversion Hx; subst. cbn [firstn map flat_map]. change (list_sum []) with 0. cbn [plus]. apply nth_error_app1. rewrite HL; cbn; auto.
  - cbn [nth_error] in Hx. cbn [firstn map flat_map]. rewrite list_sum_cons. rewrite nth_error_app2; rewrite (HL a) by (cbn; auto); [|lia].
    replace (n a + list_sum (map n (firstn ch l)) + i - n a) with (list_sum (map n (firstn ch l)) + i) by lia. apply IH; auto. intros y Hy. apply HL. cbn. auto.
Qed.
Lemma combine_flat {A B C} (f : A -> list B) (g : A -> list C) l : (forall x, In x l -> length (f x) = length (g x)) -> combine (flat_map f l) (flat_map g l) = flat_map (fun x => combine (f x) (g x)) l.
Proof.
  induction l as [|a l IH]; intros H; auto. cbn [flat_map]. rewrite <- IH by (intros; apply H; cbn; auto). specialize (H a (or_introl eq_refl)). revert H. generalize (f a) (g a). induction l0 as [|b l0 IH0]; intros [|c l1] H; try discriminate; auto.
  cbn. f_equal. apply IH0. auto.
Qed.
Lemma combine_map2 {A B A' B'} (f : A -> A') (g : B -> B') l l' : combine (map f l) (map g l') = map (fun x => (f (fst x), g (snd x))) (combine l l').
Proof. revert l'. induction l as [|a l IH]; intros [|b l']; auto. cbn. now rewrite IH. Qed.
Lemma nth_error_combine {A B} (l : list A) (l' : list B) i : nth_error (combine l l') i = match nth_error l i, nth_error l' i with Some a, Some b => Some (a, b) | _, _ => None end.
Proof. revert l' i. induction l as [|a l IH]; intros [|b l'] [|i]; cbn; auto. destruct (nth_error l i); auto. Qed.

Lemma nth_error_firstn' {A} (l : list A) n i : i < n -> nth_error (firstn n l) i = nth_error l i.
Proof. revert l i. induction n as [|n IH]; intros [|a l] [|i] H; try lia; cbn; auto. apply IH. lia. Qed.

(** ** Structure *)
Section Annot.
Variables (nTgs nElFas nEls : nat) (elFaEl : list (option nat)) (nPaEls elTg : list nat).
Hypothesis AI : annotIn nTgs nElFas nEls elFaEl nPaEls elTg.
Notation elPa := (partOf nPaEls).
Notation first := (firstEl nPaEls).
Let MI : meshIn nElFas nEls elFaEl elPa elTg := ai_mesh _ _ _ _ _ _ AI.

Lemma sum_nEls : list_sum nPaEls = nEls.
Proof. rewrite <- partOf_length. apply (mi_pa _ _ _ _ _ MI). Qed.
Lemma inPa el pa : el < nEls -> at_ elPa el = pa <-> pa < length nPaEls /\ first pa <= el < first (S pa).
Proof. intros H. apply partOf_iff. now rewrite sum_nEls. Qed.
Lemma first_le pa : pa < length nPaEls -> first pa + at_ nPaEls pa <= nEls.
Proof. intros H. rewrite <- firstEl_S by auto. rewrite <- sum_nEls, <- firstEl_all. now apply firstEl_mono. Qed.

Lemma lastPa : S (at_ elPa (nEls - 1)) = length nPaEls.
Proof.
  pose proof (mi_pos _ _ _ _ _ MI) as HP. pose proof (ai_last _ _ _ _ _ _ AI) as HL.
  assert (HN : nPaEls <> []) by (intros E; rewrite E in HL; cbn in HL; lia).
  destruct (exists_last HN) as (l & x & E). rewrite E, last_last in HL.
  assert (LN : length nPaEls = S (length l)) by (rewrite E, app_length; cbn; lia). rewrite LN. f_equal.
  apply inPa; [lia|]. split; [lia|]. rewrite <- LN, firstEl_all, sum_nEls. split; [|lia]. rewrite <- sum_nEls. unfold firstEl. rewrite E, firstn_app, firstn_all, Nat.sub_diag, !list_sum_app. cbn. lia.
Qed.

Lemma struct : exists st, getStruct nElFas nEls elFaEl elPa elTg = Ok st /\ length st = length nPaEls /\
  forall pa p, nth_error st pa = Some p -> even p /\ msgsOk (first pa) p /\
    (forall x, In x (msgs p) -> length (msFa (mSe x)) = length (msEl (mSe x)) /\ length (msEl (mRe x)) = length (msEl (mSe x)) /\ length (msFa (mRe x)) = length (msEl (mSe x)) /\
       Permutation (combine (msEl (mRe x)) (msFa (mRe x))) (combine (msEl (mSe x)) (msFa (mSe x)))).
Proof.
  destruct (C28_each_face_once _ _ _ _ _ MI) as (st & E & L & H). rewrite lastPa in L. exists st. split; auto. split; auto. intros pa p Hp. destruct (H pa p Hp) as (N & IFF & CH & LN).
  assert (EV : even p).
  { destruct (struct_ok _ _ _ _ _ MI) as (rs & st' & E' & _ & LS & _ & HS). assert (st' = st) as -> by congruence.
    assert (pa < length rs) by (rewrite <- LS; apply nth_error_Some; congruence). destruct (nth_error rs pa) as [regs|] eqn:Er; [|apply nth_error_None in Er; lia]. destruct (HS _ _ Er) as (_ & trs & Et & F).
    assert (trs = p) as -> by congruence. intros tr Ht. destruct (Forall2_in_r _ _ _ _ F Ht) as (r & _ & T1 & T2 & T3). rewrite T2. unfold sends. rewrite map_length. clear - T3. induction T3; cbn; auto. }
  assert (X : forall x, In x (msgs p) -> length (msFa (mSe x)) = length (msEl (mSe x)) /\ length (msEl (mRe x)) = length (msEl (mSe x)) /\ length (msFa (mRe x)) = length (msEl (mSe x)) /\
       Permutation (combine (msEl (mRe x)) (msFa (mRe x))) (combine (msEl (mSe x)) (msFa (mSe x)))).
  { intros x Hx. destruct (In_msgs _ _ Hx) as (tr & i & Ht & T & M & R).
    destruct (C29_same_order _ _ _ _ _ st MI E pa p tr i _ Hp Ht M) as (re & trs' & tr' & m' & R' & _ & _ & _ & _ & _ & _ & _ & _ & _ & L1 & L2 & _ & PM). assert (re = mRe x) as -> by congruence.
    destruct (LN tr (mSe x) Ht (nth_error_In _ _ M)) as (_ & L3). auto. }
  split; auto. split; auto. intros tr Ht.
  assert (B : forall m el, In m (trSend tr) -> In el (msEl m) -> first pa <= el).
  { intros m el Hm He. destruct (LN tr m Ht Hm) as (_ & L3). apply In_nth_error in He as (i & He). assert (i < length (msFa m)) by (rewrite L3; apply nth_error_Some; congruence).
    destruct (nth_error (msFa m) i) as [fa|] eqn:Ef; [|apply nth_error_None in Ef; lia].
    assert (I : In (trTg tr, msPa m, msTg m, (el, fa)) (sentBy p)).
    { unfold sentBy. apply in_flat_map. exists tr. split; auto. apply in_flat_map. exists m. split; auto. apply in_map. apply (nth_error_In _ i). rewrite nth_error_combine, He, Ef. reflexivity. }
    apply IFF in I as (I1 & I2 & _). apply (inPa el pa I1) in I2. lia. }
  assert (G : forall l l', length l = length l' -> (forall i m r, nth_error l i = Some m -> nth_error l' i = Some r -> In (trTg tr, m, r) (msgs p) /\ In m (trSend tr)) ->
    Forall2 (fun m r => length (msFa m) = length (msEl m) /\ length (msEl r) = length (msEl m) /\ length (msFa r) = length (msEl m) /\ (forall el, In el (msEl m) \/ In el (msEl r) -> first pa <= el)) l l').
  { induction l as [|m l IH]; intros [|r l'] HL HI; try discriminate; constructor; [|apply IH; [auto|intros i; apply (HI (S i))]].
    destruct (HI 0 m r eq_refl eq_refl) as (H1 & H2). destruct (X _ H1) as (X1 & X2 & X3 & X4). cbn [mSe mRe fst snd] in *. split; auto. split; auto. split; auto. intros el [He|He]; [eauto|].
    apply In_nth_error in He as (i & He). assert (i < length (msFa r)) by (rewrite X3, <- X2; apply nth_error_Some; congruence). destruct (nth_error (msFa r) i) as [fa|] eqn:Ef; [|apply nth_error_None in Ef; lia].
    assert (I : In (el, fa) (combine (msEl r) (msFa r))) by (apply (nth_error_In _ i); rewrite nth_error_combine, He, Ef; reflexivity). rewrite X4 in I. apply in_combine_l in I. eauto. }
  apply G; [auto|]. intros i m r Hm Hr. split; [eapply msgs_In; eauto|eapply nth_error_In; eauto].
Qed.
Lemma lengths st pa p : getStruct nElFas nEls elFaEl elPa elTg = Ok st -> nth_error st pa = Some p ->
  length (sFas p) = length (sEls p) /\ length (rFas p) = length (sEls p) /\ length (rEls p) = length (sEls p) /\ nFaces (chansOf p) = length (sEls p).
Proof.
  intros E Hp. destruct struct as (st' & E' & _ & H). assert (st' = st) as -> by congruence. destruct (H pa p Hp) as (EV & _ & X). unfold nFaces. rewrite (msgs_chans _ EV).
  unfold sFas, sEls, rFas, rEls. rewrite !msgs_send, !msgs_recv by auto. clear - X. induction (msgs p) as [|x l IH]; [cbn; auto|]. cbn [flat_map map]. rewrite !app_length, list_sum_cons.
  destruct (X x (or_introl eq_refl)) as (X1 & X2 & X3 & _). destruct IH as (I1 & I2 & I3 & I4); [intros y Hy; apply X; cbn; auto|]. rewrite X1, X2, X3, I1, I2, I3, I4. auto.
Qed.

Lemma slice_flat {T} (f : T -> list nat) (n : T -> nat) (st : list T) pa p : (forall q x, nth_error st q = Some x -> length (f x) = n x) -> nth_error st pa = Some p ->
  slice (flat_map f st) (list_sum (map n (firstn pa st))) (n p) = f p.
Proof.
  intros HL Hp. unfold slice. revert pa Hp. induction st as [|x st IH]; intros [|pa] Hp; try discriminate; cbn [nth_error firstn map flat_map] in *.
  - inversion Hp; subst. change (list_sum []) with 0. cbn [skipn]. rewrite <- (HL 0 p eq_refl), firstn_app, firstn_all, Nat.sub_diag. cbn. apply app_nil_r.
  - rewrite list_sum_cons. rewrite skipn_app, (HL 0 x eq_refl), skipn_all2 by (rewrite (HL 0 x eq_refl); lia). cbn [app].
    replace (n x + list_sum (map n (firstn pa st)) - n x) with (list_sum (map n (firstn pa st))) by lia. apply IH; auto. intros q y Hq. now apply (HL (S q)).
Qed.

Definition idx {T} (st : list T) : list (nat * T) := combine (seq 0 (length st)) st.
Lemma nth_idx {T} (st : list T) i x : nth_error (idx st) i = Some x <-> fst x = i /\ nth_error st i = Some (snd x).
Proof.
  unfold idx. rewrite nth_error_combine. destruct x as (j & y). cbn [fst snd]. destruct (nth_error st i) as [z|] eqn:E.
  - assert (i < length st) by (apply nth_error_Some; congruence). rewrite (nth_error_nth' _ 0) by (rewrite seq_length; lia). rewrite seq_nth by lia. cbn [plus]. split; [intros Q; inversion Q; auto|intros (-> & Q); inversion Q; auto].
  - split; [destruct (nth_error (seq 0 (length st)) i); discriminate|intros (_ & Q); discriminate].
Qed.

Lemma communication_ok garbage : exists c, communication garbage nTgs nElFas nEls elFaEl (length nPaEls) nPaEls elTg = Ok c /\
    getStruct nElFas nEls elFaEl elPa elTg = Ok (cStruct c) /\ length (cStruct c) = length nPaEls /\
    (exists i s, length i = length nPaEls * nTgs /\ length s = length nPaEls * nTgs /\ nElsInSe nElFas (length nPaEls) nTgs nEls elFaEl elPa elTg i s = Ok (cElsIn c, cElsSe c)) /\
    forall pa p, nth_error (cStruct c) pa = Some p ->
      (exists rest, getStructPa c pa = Ok (encode (chansOf p) ++ rest)) /\
      at_ (cOff c) (S pa) - at_ (cOff c) pa = nFaces (chansOf p) /\
      slice (sendFa (cSeRe c)) (at_ (cOff c) pa) (nFaces (chansOf p)) = sFas p /\ slice (sendEl (cSeRe c)) (at_ (cOff c) pa) (nFaces (chansOf p)) = map (fun e => e - first pa) (sEls p) /\
      slice (recvFa (cSeRe c)) (at_ (cOff c) pa) (nFaces (chansOf p)) = rFas p /\ slice (recvEl (cSeRe c)) (at_ (cOff c) pa) (nFaces (chansOf p)) = map (fun e => e - first pa) (rEls p).
Proof.
  assert (NL : forall n, length (map garbage (seq 0 n)) = n) by (intros; now rewrite map_length, seq_length).
  destruct struct as (st & E & L & H). pose proof (mi_pos _ _ _ _ _ MI) as HP. pose proof lastPa as LP.
  unfold communication. replace (0 <? length nPaEls) with true by lia. cbn [check bind].
  rewrite (elPas_ok nEls nPaEls) by (auto using sum_nEls). cbn [bind]. rewrite E. cbn [bind].
  destruct (setChOff_ok st (map garbage (seq 0 (length nPaEls + 1)))) as (off & -> & LO & HO); [rewrite NL; lia|]. rewrite NL in LO. cbn [bind]. rdn 0. fold (at_ off (length nPaEls)).
  destruct (setChs_ok st off (map garbage (seq 0 (length nPaEls + at_ off (length nPaEls) * 4)))) as (chs & -> & LC & HC); [lia|auto|rewrite NL, L; lia|]. rewrite NL in LC. cbn [bind].
  destruct (C30_counts nElFas (length nPaEls) nTgs nEls elFaEl elPa elTg (map garbage (seq 0 (length nPaEls * nTgs))) (map garbage (seq 0 (length nPaEls * nTgs)))) as (inn & se & EI & _); [apply MI|apply MI|apply MI| |auto|auto|].
  { intros el He. split; [|now apply (ai_tg _ _ _ _ _ _ AI)]. apply (proj1 (inPa el _ He) eq_refl). }
  rewrite EI. cbn [bind].
  destruct (setSeReElFaOff_ok st (map garbage (seq 0 (length nPaEls + 1)))) as (off2 & -> & LO2 & HO2); [rewrite NL; lia|]. rewrite NL in LO2. cbn [bind]. rdn 0. fold (at_ off2 (length nPaEls)).
  set (N := at_ off2 (length nPaEls)).
  destruct (setSeReElFa_ok nPaEls st N (mkSeRe (map garbage (seq 0 N)) (map garbage (seq 0 N)) (map garbage (seq 0 N)) (map garbage (seq 0 N)))) as (o & EO & A4);
    [lia|intros pa p Hp; apply H; auto|unfold N; rewrite <- L, HO2, firstn_all; auto|cbn; auto|cbn; auto|cbn; auto|cbn; auto|].
  rewrite EO. cbn [bind].
  eexists. split; [reflexivity|]. cbn [cStruct cElsIn cElsSe cOff cSeRe]. split; auto. split; auto. split; [do 2 eexists; split; [|split; [|exact EI]]; auto|].
  intros pa p Hp. assert (Hpa : pa < length st) by (apply nth_error_Some; congruence). destruct (lengths _ _ _ E Hp) as (_ & _ & _ & NF).
  split.
  - unfold getStructPa. cbn [cChOff cChs]. rdn 0. fold (at_ off pa). rewrite <- (firstn_skipn (length st + 4 * at_ off (length st)) chs), HC.
    exists (skipn (length (encode (chansOf p))) (skipn (at_ off pa * 4 + pa) (flat_map (fun p => encode (chansOf p)) st ++ skipn (length st + 4 * at_ off (length st)) chs))). f_equal.
    rewrite <- (firstn_skipn (length (encode (chansOf p))) (skipn (at_ off pa * 4 + pa) _)) at 1. f_equal.
    assert (Q : at_ off pa * 4 + pa = list_sum (map (fun p => length (encode (chansOf p))) (firstn pa st))).
    { rewrite HO by lia. clear - Hpa. revert pa Hpa. induction st as [|x st IH]; intros [|pa] H; cbn [length] in *; try lia; auto. cbn [firstn map]. rewrite !list_sum_cons, <- IH, encode_length by lia. lia. }
    rewrite Q. rewrite skipn_app, firstn_app.
    pose proof (slice_flat (fun p => encode (chansOf p)) (fun p => length (encode (chansOf p))) st pa p ltac:(auto) Hp) as SF. unfold slice in SF. rewrite SF.
    apply (f_equal (@length _)) in SF. rewrite firstn_length in SF. replace (length (encode (chansOf p)) - length (skipn (list_sum (map (fun p0 : partition => length (encode (chansOf p0))) (firstn pa st))) (flat_map (fun p0 : partition => encode (chansOf p0)) st))) with 0 by lia. cbn [firstn]. apply app_nil_r.
  - rewrite NF. destruct A4 as (B1 & B2 & B3 & B4 & _ & _ & _ & _ & C1 & C2 & C3 & C4). cbn [st4 a1 a2 a3 a4] in *. rewrite firstn_all in *.
    rewrite <- B1, firstn_all in C1. rewrite <- B2, firstn_all in C2. rewrite <- B3, firstn_all in C3. rewrite <- B4, firstn_all in C4.
    assert (OS : at_ off2 (S pa) = at_ off2 pa + length (sEls p)).
    { rewrite !HO2 by lia. rewrite (firstn_S_snoc _ _ _ Hp), map_app, list_sum_app. cbn [map]. rewrite list_sum_cons. change (list_sum []) with 0. lia. }
    split; [lia|]. rewrite C1, C2, C3, C4, HO2 by lia.
    assert (SEQ : forall g : partition -> list nat, concat (map (fun pa0 => map (fun e => e - first pa0) (g (nth pa0 st []))) (seq 0 (length st))) = flat_map (fun x => map (fun e => e - first (fst x)) (g (snd x))) (idx st)).
    { intros g. rewrite flat_map_concat_map. f_equal. apply nth_error_ext'. intros i. rewrite !nth_error_map. destruct (lt_dec i (length st)) as [Li|Li].
      - rewrite (nth_error_nth' (seq 0 (length st)) 0) by (rewrite seq_length; lia). rewrite seq_nth by lia. cbn [plus]. rewrite (proj2 (nth_idx st i (i, nth i st []))); [reflexivity|]. cbn [fst snd]. split; auto. now apply nth_error_nth'.
      - rewrite (proj2 (nth_error_None (seq 0 (length st)) i)) by (rewrite seq_length; lia). rewrite (proj2 (nth_error_None (idx st) i)) by (unfold idx; rewrite combine_length, seq_length; lia). reflexivity. }
    assert (FI : map (fun p => length (sEls p)) (firstn pa st) = map (fun x => length (sEls (snd x))) (firstn pa (idx st))).
    { apply nth_error_ext'. intros i. rewrite !nth_error_map. destruct (lt_dec i pa) as [Li|Li].
      - rewrite !nth_error_firstn' by auto. destruct (nth_error st i) as [x|] eqn:Ex; [|apply nth_error_None in Ex; lia]. rewrite (proj2 (nth_idx st i (i, x))) by auto. reflexivity.
      - rewrite (proj2 (nth_error_None (firstn pa st) i)), (proj2 (nth_error_None (firstn pa (idx st)) i)) by (rewrite firstn_length; lia). reflexivity. }
    split; [|split; [|split]].
    + apply (slice_flat sFas (fun p => length (sEls p))); auto. intros q x Hq. apply (lengths _ _ _ E Hq).
    + rewrite SEQ, FI. apply (slice_flat (fun x => map (fun e => e - first (fst x)) (sEls (snd x))) (fun x => length (sEls (snd x))) (idx st) pa (pa, p)); [intros; apply map_length|]. apply nth_idx. auto.
    + apply (slice_flat rFas (fun p => length (sEls p))); auto. intros q x Hq. apply (lengths _ _ _ E Hq).
    + rewrite SEQ, FI. apply (slice_flat (fun x => map (fun e => e - first (fst x)) (rEls (snd x))) (fun x => length (sEls (snd x))) (idx st) pa (pa, p)); [|apply nth_idx; auto].
      intros q x Hq. rewrite map_length. apply nth_idx in Hq as (_ & Hq). apply (lengths _ _ _ E Hq).
Qed.
End Annot.

(** * C29: encoding *)

(** The constructor succeeds. For each partition, the memory behind getStruct starts with the number of channels and four entries per
    channel, and the arrays of send and receive faces and elements hold the entries of the channels, in this order and with elements
    relative to the first element of the partition. *)
Theorem C29_encoding garbage nTgs nElFas nEls elFaEl nPaEls elTg : annotIn nTgs nElFas nEls elFaEl nPaEls elTg ->
  exists c, communication garbage nTgs nElFas nEls elFaEl (length nPaEls) nPaEls elTg = Ok c /\
    getStruct nElFas nEls elFaEl (partOf nPaEls) elTg = Ok (cStruct c) /\ length (cStruct c) = length nPaEls /\
    forall pa p, nth_error (cStruct c) pa = Some p ->
      (exists rest, getStructPa c pa = Ok (encode (chansOf p) ++ rest)) /\
      let n := at_ (cOff c) (S pa) - at_ (cOff c) pa in
      let loc := map (fun e => e - firstEl nPaEls pa) in
      n = nFaces (chansOf p) /\
      slice (sendFa (cSeRe c)) (at_ (cOff c) pa) n = sFas p /\ slice (sendEl (cSeRe c)) (at_ (cOff c) pa) n = loc (sEls p) /\
      slice (recvFa (cSeRe c)) (at_ (cOff c) pa) n = rFas p /\ slice (recvEl (cSeRe c)) (at_ (cOff c) pa) n = loc (rEls p).
Proof.
  intros AI. destruct (communication_ok _ _ _ _ _ _ AI garbage) as (c & E1 & E2 & L & _ & H). exists c. split; auto. split; auto. split; auto. intros pa p Hp. destruct (H pa p Hp) as (H1 & H2 & H3). cbv zeta. rewrite H2. auto.
Qed.
Print Assumptions C29_encoding.

(** * C49 *)

(** The mesh part and annotations of rank [pa]. *)
Definition rankPart (nTgs nElFas : nat) (elFaEl : list (option nat)) (nPaEls : list nat) (c : commData) (pa : nat) : part :=
  let n := at_ (cOff c) (S pa) - at_ (cOff c) pa in
  mkPart (at_ nPaEls pa) nElFas (localAdj nElFas elFaEl (firstEl nPaEls pa) (at_ nPaEls pa))
    (slice (cElsIn c) (pa * nTgs) nTgs) (slice (cElsSe c) (pa * nTgs) nTgs) (chansOf (nth pa (cStruct c) []))
    (slice (sendFa (cSeRe c)) (at_ (cOff c) pa) n) (slice (sendEl (cSeRe c)) (at_ (cOff c) pa) n).
Definition rankRecvFa (c : commData) (pa : nat) : list nat := slice (recvFa (cSeRe c)) (at_ (cOff c) pa) (at_ (cOff c) (S pa) - at_ (cOff c) pa).
Definition rankRecvEl (c : commData) (pa : nat) : list nat := slice (recvEl (cSeRe c)) (at_ (cOff c) pa) (at_ (cOff c) (S pa) - at_ (cOff c) pa).

Lemma slice_map l o n : o + n <= length l -> slice l o n = map (fun t => at_ l (o + t)) (seq 0 n).
Proof.
  intros H. apply nth_error_ext'. intros i. rewrite nth_error_map. unfold slice. destruct (lt_dec i n) as [L|L].
  - rewrite nth_error_firstn' by auto. rewrite nth_error_skipn', (nth_error_nth' (seq 0 n) 0) by (rewrite seq_length; lia). rewrite seq_nth by lia. cbn [option_map plus]. apply nth_error_nth'. lia.
  - rewrite (proj2 (nth_error_None _ _)) by (rewrite firstn_length; lia). rewrite (proj2 (nth_error_None (seq 0 n) i)) by (rewrite seq_length; lia). reflexivity.
Qed.
Lemma firstn_seq' k n : k <= n -> firstn k (seq 0 n) = seq 0 k.
Proof. intros H. replace n with (k + (n - k)) by lia. rewrite seq_app, firstn_app, seq_length, Nat.sub_diag. cbn [firstn]. rewrite app_nil_r. rewrite <- (seq_length k 0) at 1. apply firstn_all. Qed.

Lemma NoDup_app_intro {A} (l l' : list A) : NoDup l -> NoDup l' -> (forall x, In x l -> In x l' -> False) -> NoDup (l ++ l').
Proof.
  induction 1 as [|a l Na Nl IH]; intros N' D; auto. cbn. constructor; [|apply IH; auto; intros x A1 A2; apply (D x); cbn; auto]. rewrite in_app_iff. intros [X|X]; [auto|apply (D a); cbn; auto].
Qed.

Lemma counts_sum (P : nat -> nat -> Prop) (f : nat -> nat) n : (forall t, t < n -> counts (P t) (f t)) -> (forall t t' x, P t x -> P t' x -> t = t') ->
  counts (fun x => exists t, t < n /\ P t x) (list_sum (map f (seq 0 n))).
Proof.
  intros H D. induction n as [|n IH].
  - exists []. split; [constructor|]. split; [|reflexivity]. intros x. split; [intros []|intros (t & Ht & _); lia].
  - destruct IH as (l & N & IFF & L); [intros; apply H; lia|]. destruct (H n ltac:(lia)) as (l' & N' & IFF' & L'). exists (l ++ l'). split; [|split].
    + apply NoDup_app_intro; auto. intros x Hx Hx'. apply IFF in Hx as (t & Ht & Px). apply IFF' in Hx'. rewrite (D _ _ _ Px Hx') in Ht. lia.
    + intros x. rewrite in_app_iff, IFF, IFF'. split; [intros [(t & Ht & Px)|Px]; [exists t|exists n]; split; auto; lia|]. intros (t & Ht & Px). destruct (Nat.eq_dec t n) as [->|]; [auto|left; exists t; split; auto; lia].
    + rewrite app_length, L, L', seq_S, map_app, list_sum_app. cbn. lia.
Qed.
Lemma counts_le P Q n m : counts P n -> counts Q m -> (forall x, P x -> Q x) -> n <= m.
Proof. intros (l & N & I & <-) (l' & N' & I' & <-) H. apply NoDup_incl_length; auto. intros x Hx. apply I', H, I, Hx. Qed.
Lemma counts_range a b : a <= b -> counts (fun x => a <= x < b) (b - a).
Proof. intros H. exists (seq a (b - a)). split; [apply seq_NoDup|]. split; [intros x; rewrite in_seq; lia|apply seq_length]. Qed.
Lemma counts_or P Q n m : counts P n -> counts Q m -> (forall x, P x -> Q x -> False) -> counts (fun x => P x \/ Q x) (n + m).
Proof.
  intros (l & N & I & <-) (l' & N' & I' & <-) D. exists (l ++ l'). split; [apply NoDup_app_intro; auto; intros x A B; apply (D x); [now apply I|now apply I']|]. split; [|apply app_length]. intros x. rewrite in_app_iff, I, I'. tauto.
Qed.

Section Ranks.
Variables (nTgs nElFas nEls : nat) (elFaEl : list (option nat)) (nPaEls elTg : list nat) (garbage : nat -> nat) (c : commData).
Hypothesis AI : annotIn nTgs nElFas nEls elFaEl nPaEls elTg.
Hypothesis EC : communication garbage nTgs nElFas nEls elFaEl (length nPaEls) nPaEls elTg = Ok c.
Notation elPa := (partOf nPaEls).
Notation first := (firstEl nPaEls).
Notation crosses := (crosses nElFas elFaEl elPa).
Notation x_ := (rankPart nTgs nElFas elFaEl nPaEls c).
Let MI : meshIn nElFas nEls elFaEl elPa elTg := ai_mesh _ _ _ _ _ _ AI.

Definition sumIn (pa k : nat) := list_sum (map (fun t => at_ (cElsIn c) (pa * nTgs + t)) (seq 0 k)).
Definition sumSe (pa k : nat) := list_sum (map (fun t => at_ (cElsSe c) (pa * nTgs + t)) (seq 0 k)).
Definition inner (pa k x : nat) := x < nEls /\ at_ elPa x = pa /\ ~ crosses x /\ at_ elTg x < k.
Definition send (pa k x : nat) := x < nEls /\ at_ elPa x = pa /\ crosses x /\ at_ elTg x < k.

Lemma comm : getStruct nElFas nEls elFaEl elPa elTg = Ok (cStruct c) /\ length (cStruct c) = length nPaEls /\
  (length (cElsIn c) = length nPaEls * nTgs /\ length (cElsSe c) = length nPaEls * nTgs /\ forall pa k, pa < length nPaEls -> k <= nTgs -> counts (inner pa k) (sumIn pa k) /\ counts (send pa k) (sumSe pa k)) /\
  forall pa p, nth_error (cStruct c) pa = Some p ->
    (exists rest, getStructPa c pa = Ok (encode (chansOf p) ++ rest)) /\
    xChs (x_ pa) = chansOf p /\ xSendFa (x_ pa) = sFas p /\ xSendEl (x_ pa) = map (fun e => e - first pa) (sEls p) /\ rankRecvFa c pa = rFas p /\ rankRecvEl c pa = map (fun e => e - first pa) (rEls p).
Proof.
  destruct (communication_ok _ _ _ _ _ _ AI garbage) as (c' & E & ES & LS & (i & s & LI & LSe & EI) & H). assert (c' = c) as -> by congruence. split; auto. split; auto. split.
  - destruct (C30_counts nElFas (length nPaEls) nTgs nEls elFaEl elPa elTg i s) as (inn & se & EI' & L1 & L2 & HC); [apply MI|apply MI|apply MI| |auto|auto|].
    { intros el He. split; [|now apply (ai_tg _ _ _ _ _ _ AI)]. apply (proj1 (inPa _ _ _ _ _ _ AI el _ He) eq_refl). }
    assert ((inn, se) = (cElsIn c, cElsSe c)) as Q by congruence. inversion Q; subst. split; auto. split; auto. intros pa k Hpa Hk. split.
    + destruct (counts_sum (fun t el => el < nEls /\ at_ elPa el = pa /\ at_ elTg el = t /\ ~ crosses el) (fun t => at_ (cElsIn c) (pa * nTgs + t)) k) as (l & N & I & L); [intros t Ht; apply HC; lia|intros t t' x (_ & _ & A & _) (_ & _ & B & _); congruence|].
      exists l. split; auto. split; auto. intros x. rewrite I. unfold inner. split; [intros (t & Ht & A1 & A2 & A3 & A4); repeat split; auto; lia|intros (A1 & A2 & A3 & A4); exists (at_ elTg x); auto].
    + destruct (counts_sum (fun t el => el < nEls /\ at_ elPa el = pa /\ at_ elTg el = t /\ crosses el) (fun t => at_ (cElsSe c) (pa * nTgs + t)) k) as (l & N & I & L); [intros t Ht; apply HC; lia|intros t t' x (_ & _ & A & _) (_ & _ & B & _); congruence|].
      exists l. split; auto. split; auto. intros x. rewrite I. unfold send. split; [intros (t & Ht & A1 & A2 & A3 & A4); repeat split; auto; lia|intros (A1 & A2 & A3 & A4); exists (at_ elTg x); auto].
  - intros pa p Hp. destruct (H pa p Hp) as (H1 & H2 & H3 & H4 & H5 & H6). split; auto. unfold rankPart, rankRecvFa, rankRecvEl. cbn [xChs xSendFa xSendEl]. rewrite H2, (nth_error_nth _ _ _ Hp). auto 10.
Qed.

Lemma sum_sl pa k : pa < length nPaEls -> k <= nTgs -> list_sum (firstn k (slice (cElsIn c) (pa * nTgs) nTgs)) = sumIn pa k /\ list_sum (firstn k (slice (cElsSe c) (pa * nTgs) nTgs)) = sumSe pa k.
Proof.
  intros Hpa Hk. destruct comm as (_ & _ & (L1 & L2 & _) & _). assert (pa * nTgs + nTgs <= length nPaEls * nTgs) by nia. rewrite !slice_map by lia. rewrite !firstn_map, !firstn_seq' by auto. auto.
Qed.
Lemma len_sl pa : pa < length nPaEls -> length (slice (cElsIn c) (pa * nTgs) nTgs) = nTgs /\ length (slice (cElsSe c) (pa * nTgs) nTgs) = nTgs.
Proof.
  intros Hpa. destruct comm as (_ & _ & (L1 & L2 & _) & _). assert (pa * nTgs + nTgs <= length nPaEls * nTgs) by nia. rewrite !slice_map by lia. rewrite !map_length, seq_length. auto.
Qed.
Lemma sum_all pa : pa < length nPaEls -> list_sum (slice (cElsIn c) (pa * nTgs) nTgs) = sumIn pa nTgs /\ list_sum (slice (cElsSe c) (pa * nTgs) nTgs) = sumSe pa nTgs.
Proof.
  intros Hpa. destruct (len_sl pa Hpa) as (A & B). destruct (sum_sl pa nTgs Hpa ltac:(lia)) as (C & D). rewrite <- C, <- D, !firstn_all2 by lia. auto.
Qed.

Lemma cross_dec el : el < nEls -> crosses el \/ ~ crosses el.
Proof. intros H. destruct (isComm_ok nElFas nEls elFaEl (mi_mesh _ _ _ _ _ MI) elPa el (mi_pa _ _ _ _ _ MI) H) as (b & _ & B). destruct b; [left; now apply B|right; intros X; apply B in X; discriminate]. Qed.

Lemma range_pa pa el : pa < length nPaEls -> first pa <= el < first (S pa) -> el < nEls /\ at_ elPa el = pa.
Proof. intros Hpa H. rewrite firstEl_S in H by auto. pose proof (first_le _ _ _ _ _ _ AI pa Hpa). split; [lia|]. apply (inPa _ _ _ _ _ _ AI); [lia|]. rewrite firstEl_S by auto. lia. Qed.

Lemma size_pa pa : pa < length nPaEls -> at_ nPaEls pa = sumIn pa nTgs + sumSe pa nTgs.
Proof.
  intros Hpa. destruct comm as (_ & _ & (_ & _ & HC) & _). destruct (HC pa nTgs Hpa ltac:(lia)) as (C1 & C2).
  assert (CO : counts (fun x => inner pa nTgs x \/ send pa nTgs x) (sumIn pa nTgs + sumSe pa nTgs)) by (apply counts_or; auto; intros x (_ & _ & A & _) (_ & _ & B & _); auto).
  pose proof (counts_range (first pa) (first (S pa)) (firstEl_mono nPaEls pa (S pa) ltac:(lia))) as CR. pose proof (firstEl_S nPaEls pa Hpa) as FS. replace (first (S pa) - first pa) with (at_ nPaEls pa) in CR by lia.
  apply Nat.le_antisymm; eapply counts_le; eauto; cbv beta.
  - intros x Hx. destruct (range_pa pa x Hpa Hx) as (X1 & X2). pose proof (ai_tg _ _ _ _ _ _ AI x X1). unfold inner, send. destruct (cross_dec x X1); auto 10.
  - intros x [(X1 & X2 & _)|(X1 & X2 & _)]; apply (inPa _ _ _ _ _ _ AI x pa X1) in X2; lia.
Qed.

Lemma inTg_own pa el : pa < length nPaEls -> el < at_ nPaEls pa -> inTg (xIn (x_ pa)) (xSe (x_ pa)) el (at_ elTg (first pa + el)).
Proof.
  intros Hpa Hel. cbn [rankPart xIn xSe]. pose proof (firstEl_S nPaEls pa Hpa) as FS. set (g := first pa + el). destruct (range_pa pa g Hpa ltac:(unfold g; lia)) as (G1 & G2).
  pose proof (ai_tg _ _ _ _ _ _ AI g G1) as GT. destruct (len_sl pa Hpa) as (L1 & L2). destruct (sum_all pa Hpa) as (SA & _).
  destruct comm as (_ & _ & (_ & _ & HC) & _).
  destruct (C27_contiguous nElFas nEls elFaEl elPa (at_ elTg) (mi_mesh _ _ _ _ _ MI) (mi_pa _ _ _ _ _ MI) (mi_ord _ _ _ _ _ MI)) as (_ & CS & CT & _).
  set (t := at_ elTg g) in *. destruct (sum_sl pa t Hpa ltac:(lia)) as (S1 & S2). destruct (sum_sl pa (S t) Hpa ltac:(lia)) as (S3 & S4).
  unfold inTg. rewrite L1, L2, SA, S1, S2, S3, S4.
  assert (B1 : counts (fun x => first pa <= x < g) el) by (replace el with (g - first pa) by (unfold g; lia); apply counts_range; unfold g; lia).
  assert (B2 : counts (fun x => first pa <= x < S g) (S el)) by (replace (S el) with (S g - first pa) by (unfold g; lia); apply counts_range; unfold g; lia).
  assert (RNG : forall x, x < nEls -> at_ elPa x = pa -> first pa <= x) by (intros x X1 X2; apply (inPa _ _ _ _ _ _ AI x pa X1) in X2; lia).
  destruct (cross_dec g G1) as [CG|CG]; [right|left]; (split; [lia|]).
  - destruct (HC pa t Hpa ltac:(lia)) as (_ & C2). destruct (HC pa nTgs Hpa ltac:(lia)) as (C1 & _). destruct (HC pa (S t) Hpa ltac:(lia)) as (_ & C4).
    assert (D1 : counts (fun x => inner pa nTgs x \/ send pa t x) (sumIn pa nTgs + sumSe pa t)) by (apply counts_or; auto; intros x (_ & _ & A & _) (_ & _ & B & _); auto).
    assert (D2 : counts (fun x => inner pa nTgs x \/ send pa (S t) x) (sumIn pa nTgs + sumSe pa (S t))) by (apply counts_or; auto; intros x (_ & _ & A & _) (_ & _ & B & _); auto).
    split; [eapply counts_le; [exact D1|exact B1|]|enough (S el <= sumIn pa nTgs + sumSe pa (S t)) by lia; eapply counts_le; [exact B2|exact D2|]]; cbv beta.
    + intros x Hx. assert (x < nEls /\ at_ elPa x = pa) as (X1 & X2) by (destruct Hx as [(X1 & X2 & _)|(X1 & X2 & _)]; auto). split; [auto|].
      destruct (lt_eq_lt_dec x g) as [[Q|Q]|Q]; auto; exfalso.
      * subst x. destruct Hx as [(_ & _ & A & _)|(_ & _ & _ & A)]; [auto|unfold t in A; lia].
      * assert (crosses x) as CX by (apply (CS g x Q X1); auto; congruence). destruct Hx as [(_ & _ & A & _)|(_ & _ & _ & A)]; [auto|]. assert (at_ elTg g <= at_ elTg x) by (apply (CT g x Q X1); [congruence|tauto]). unfold t in A. lia.
    + intros x Hx. destruct (range_pa pa x Hpa ltac:(unfold g in *; lia)) as (X1 & X2). destruct (cross_dec x X1) as [CX|CX]; [right|left]; unfold inner, send; repeat split; auto; [|now apply (ai_tg _ _ _ _ _ _ AI)].
      destruct (Nat.eq_dec x g) as [->|]; [unfold t; lia|]. assert (at_ elTg x <= at_ elTg g) by (apply (CT x g); [lia|auto|congruence|tauto]). unfold t. lia.
  - destruct (HC pa t Hpa ltac:(lia)) as (C1 & _). destruct (HC pa (S t) Hpa ltac:(lia)) as (C3 & _).
    split; [eapply counts_le; [exact C1|exact B1|]|enough (S el <= sumIn pa (S t)) by lia; eapply counts_le; [exact B2|exact C3|]]; cbv beta.
    + intros x (X1 & X2 & X3 & X4). split; [auto|]. destruct (lt_eq_lt_dec x g) as [[Q|Q]|Q]; auto; exfalso.
      * subst x. unfold t in X4. lia.
      * assert (at_ elTg g <= at_ elTg x) by (apply (CT g x Q X1); [congruence|tauto]). unfold t in X4. lia.
    + intros x Hx. destruct (range_pa pa x Hpa ltac:(unfold g in *; lia)) as (X1 & X2).
      assert (NX : ~ crosses x). { intros CX. destruct (Nat.eq_dec x g) as [->|]; [auto|]. apply CG, (CS x g); [lia|auto|congruence|auto]. }
      unfold inner. repeat split; auto. destruct (Nat.eq_dec x g) as [->|]; [unfold t; lia|]. assert (at_ elTg x <= at_ elTg g) by (apply (CT x g); [lia|auto|congruence|tauto]). unfold t. lia.
Qed.

(** local adjacency *)
Lemma localAdj_at pa el fa : pa < length nPaEls -> el < at_ nPaEls pa -> fa < nElFas ->
  nth_error (localAdj nElFas elFaEl (first pa) (at_ nPaEls pa)) (el * nElFas + fa) =
  Some (match nth_error elFaEl ((first pa + el) * nElFas + fa) with
        | Some (Some ad) => if (first pa <=? ad) && (ad <? first pa + at_ nPaEls pa) then Some (ad - first pa) else None | _ => None end).
Proof.
  intros Hpa He Hf. unfold localAdj. rewrite nth_error_map, (nth_error_nth' (seq 0 _) 0) by (rewrite seq_length; nia). rewrite seq_nth by nia. cbn [option_map plus]. do 2 f_equal.
  replace (first pa * nElFas + (el * nElFas + fa)) with ((first pa + el) * nElFas + fa) by lia. reflexivity.
Qed.

(** messages *)
Lemma struct_pa pa : pa < length nPaEls -> exists p, nth_error (cStruct c) pa = Some p /\ even p /\
    (forall x, In x (msgs p) -> length (msFa (mSe x)) = length (msEl (mSe x)) /\ length (msEl (mRe x)) = length (msEl (mSe x)) /\ length (msFa (mRe x)) = length (msEl (mSe x)) /\
       Permutation (combine (msEl (mRe x)) (msFa (mRe x))) (combine (msEl (mSe x)) (msFa (mSe x)))).
Proof.
  intros Hpa. destruct comm as (ES & LS & _). destruct (struct _ _ _ _ _ _ AI) as (st & E & _ & H). assert (st = cStruct c) as -> by congruence.
  destruct (nth_error (cStruct c) pa) as [p|] eqn:Ep; [|apply nth_error_None in Ep; lia]. exists p. split; auto. destruct (H pa p Ep) as (A & _ & B). auto.
Qed.

(** entry [i] of message [ch] *)
Lemma faceNo_msgs p ch i : even p -> faceNo (chansOf p) ch i = list_sum (map (fun x => length (msEl (mSe x))) (firstn ch (msgs p))) + i.
Proof. intros EV. unfold faceNo. rewrite (msgs_chans _ EV), firstn_map, map_map. reflexivity. Qed.

Lemma entries pa p ch x i : pa < length nPaEls -> nth_error (cStruct c) pa = Some p -> nth_error (msgs p) ch = Some x -> i < length (msEl (mSe x)) ->
  nth_error (xChs (x_ pa)) ch = Some (chOf x) /\
  nth_error (xSendEl (x_ pa)) (faceNo (xChs (x_ pa)) ch i) = option_map (fun e => e - first pa) (nth_error (msEl (mSe x)) i) /\
  nth_error (xSendFa (x_ pa)) (faceNo (xChs (x_ pa)) ch i) = nth_error (msFa (mSe x)) i /\
  nth_error (rankRecvEl c pa) (faceNo (xChs (x_ pa)) ch i) = option_map (fun e => e - first pa) (nth_error (msEl (mRe x)) i) /\
  nth_error (rankRecvFa c pa) (faceNo (xChs (x_ pa)) ch i) = nth_error (msFa (mRe x)) i.
Proof.
  intros Hpa Hp Hx Hi. destruct comm as (_ & _ & _ & H). destruct (H pa p Hp) as (_ & H1 & H2 & H3 & H4 & H5). rewrite H1, H2, H3, H4, H5.
  destruct (struct_pa pa Hpa) as (p' & Hp' & EV & X). assert (p' = p) as -> by congruence.
  rewrite !nth_error_map, (faceNo_msgs _ _ _ EV). unfold sEls, sFas, rEls, rFas. rewrite !msgs_send, !msgs_recv, (msgs_chans _ EV), nth_error_map, Hx by auto. split; auto.
  rewrite !(flat_at _ (fun x => length (msEl (mSe x))) (msgs p)) with (x := x); auto; intros y Hy; apply (X y Hy).
Qed.

Lemma sent_iff pa p tg paAd tgAd el fa : nth_error (cStruct c) pa = Some p ->
  In (tg, paAd, tgAd, (el, fa)) (sentBy p) <-> el < nEls /\ at_ elPa el = pa /\ at_ elTg el = tg /\ exists ad, face nElFas elFaEl el fa ad /\ at_ elPa ad = paAd /\ paAd <> pa /\ at_ elTg ad = tgAd.
Proof. intros Hp. destruct comm as (ES & _). destruct (C28_each_face_once _ _ _ _ _ MI) as (st & E & _ & H). assert (st = cStruct c) as -> by congruence. apply (H pa p Hp). Qed.

Lemma sent_msgs pa p tg paAd tgAd el fa : pa < length nPaEls -> nth_error (cStruct c) pa = Some p ->
  In (tg, paAd, tgAd, (el, fa)) (sentBy p) <-> exists ch x i, nth_error (msgs p) ch = Some x /\ mTr x = tg /\ msPa (mSe x) = paAd /\ msTg (mSe x) = tgAd /\
    nth_error (msEl (mSe x)) i = Some el /\ nth_error (msFa (mSe x)) i = Some fa.
Proof.
  intros Hpa Hp. destruct (struct_pa pa Hpa) as (p' & Hp' & EV & X). assert (p' = p) as -> by congruence. rewrite (msgs_sent _ EV), in_flat_map. split.
  - intros (x & Hx & H). apply in_map_iff in H as ((e & f) & Q & H). inversion Q; subst. apply In_nth_error in Hx as (ch & Hx). apply In_nth_error in H as (i & H). rewrite nth_error_combine in H.
    destruct (nth_error (msEl (mSe x)) i) eqn:E1; [|discriminate]. destruct (nth_error (msFa (mSe x)) i) eqn:E2; [|discriminate]. inversion H; subst. exists ch, x, i. auto 10.
  - intros (ch & x & i & Hx & <- & <- & <- & E1 & E2). exists x. split; [eapply nth_error_In; eauto|]. apply in_map_iff. exists (el, fa). split; auto. apply (nth_error_In _ i). rewrite nth_error_combine, E1, E2. reflexivity.
Qed.

Lemma msg_el pa p x el i : pa < length nPaEls -> nth_error (cStruct c) pa = Some p -> In x (msgs p) -> nth_error (msEl (mSe x)) i = Some el -> first pa <= el < first (S pa) /\ exists fa, nth_error (msFa (mSe x)) i = Some fa /\ fa < nElFas.
Proof.
  intros Hpa Hp Hx He. destruct (struct_pa pa Hpa) as (p' & Hp' & EV & X). assert (p' = p) as -> by congruence. destruct (X x Hx) as (L1 & _).
  destruct (nth_error (msFa (mSe x)) i) as [fa|] eqn:Ef; [|apply nth_error_None in Ef; assert (i < length (msEl (mSe x))) by (apply nth_error_Some; congruence); lia].
  apply In_nth_error in Hx as (ch & Hx). assert (I : In (mTr x, msPa (mSe x), msTg (mSe x), (el, fa)) (sentBy p)) by (apply (sent_msgs pa p); auto; exists ch, x, i; auto 10).
  apply (sent_iff pa p) in I as (I1 & I2 & _ & ad & (I3 & _) & _); auto. split; [|exists fa; auto]. now apply (inPa _ _ _ _ _ _ AI el pa I1) in I2.
Qed.

Lemma commTg_iff pa el fa tg : pa < length nPaEls -> el < at_ nPaEls pa ->
  commTg (xChs (x_ pa)) (xSendFa (x_ pa)) (xSendEl (x_ pa)) el fa tg <-> exists ad, face nElFas elFaEl (first pa + el) fa ad /\ at_ elPa ad <> pa /\ at_ elTg ad = tg.
Proof.
  intros Hpa He. destruct (struct_pa pa Hpa) as (p & Hp & EV & X). pose proof (firstEl_S nPaEls pa Hpa) as FS. destruct (range_pa pa (first pa + el) Hpa ltac:(lia)) as (G1 & G2).
  destruct comm as (_ & _ & _ & HC). destruct (HC pa p Hp) as (_ & HC1 & _). unfold commTg. split.
  - intros (ch & c0 & i & A1 & A2 & A3 & A4 & A5). rewrite HC1, (msgs_chans _ EV), nth_error_map in A1. destruct (nth_error (msgs p) ch) as [x|] eqn:Ex; [|discriminate]. cbn in A1. inversion A1; subst c0. clear A1. cbn [chOf cN cTgAd] in *.
    destruct (entries pa p ch x i Hpa Hp Ex A2) as (_ & B1 & B2 & _). rewrite B1 in A4. rewrite B2 in A5. destruct (nth_error (msEl (mSe x)) i) as [e|] eqn:Ee; [|discriminate]. cbn in A4.
    destruct (msg_el pa p x e i Hpa Hp (nth_error_In _ _ Ex) Ee) as (R & _). assert (e = first pa + el) as -> by (inversion A4; lia).
    assert (I : In (mTr x, msPa (mSe x), msTg (mSe x), (first pa + el, fa)) (sentBy p)) by (apply (sent_msgs pa p); auto; exists ch, x, i; auto 10).
    apply (sent_iff pa p) in I as (I1 & I2 & _ & ad & F & P1 & P2 & P3); auto. exists ad. split; auto. split; [congruence|]. congruence.
  - intros (ad & F & N & T).
    assert (I : In (at_ elTg (first pa + el), at_ elPa ad, tg, (first pa + el, fa)) (sentBy p)) by (apply (sent_iff pa p); auto; repeat split; auto; exists ad; auto).
    apply (sent_msgs pa p) in I as (ch & x & i & Ex & M1 & M2 & M3 & M4 & M5); auto. assert (Hi : i < length (msEl (mSe x))) by (apply nth_error_Some; congruence).
    destruct (entries pa p ch x i Hpa Hp Ex Hi) as (B0 & B1 & B2 & _). exists ch, (chOf x), i. rewrite B1, B2, M4, M5. cbn [option_map chOf cN cTgAd]. repeat split; auto. f_equal. lia.
Qed.

Lemma send_pairs pa p : pa < length nPaEls -> nth_error (cStruct c) pa = Some p -> combine (sEls p) (sFas p) = map snd (sentBy p).
Proof.
  intros Hpa Hp. destruct (struct_pa pa Hpa) as (p' & Hp' & EV & X). assert (p' = p) as -> by congruence. unfold sEls, sFas. rewrite !msgs_send, (msgs_sent _ EV) by auto. rewrite combine_flat by (intros x Hx; symmetry; apply (X x Hx)).
  clear. induction (msgs p) as [|x l IH]; auto. cbn [flat_map]. rewrite map_app, IH, map_map. f_equal. cbn [snd]. now rewrite map_id.
Qed.
Lemma recv_pairs pa p : pa < length nPaEls -> nth_error (cStruct c) pa = Some p -> Permutation (combine (rEls p) (rFas p)) (combine (sEls p) (sFas p)).
Proof.
  intros Hpa Hp. destruct (struct_pa pa Hpa) as (p' & Hp' & EV & X). assert (p' = p) as -> by congruence. unfold sEls, sFas, rEls, rFas. rewrite !msgs_send, !msgs_recv by auto.
  rewrite !combine_flat by (intros x Hx; destruct (X x Hx) as (X1 & X2 & X3 & _); congruence). clear - X. induction (msgs p) as [|x l IH]; auto. cbn [flat_map]. apply Permutation_app; [apply X; cbn; auto|apply IH; intros; apply X; cbn; auto].
Qed.

Lemma valid_gen pa p el fa : pa < length nPaEls -> nth_error (cStruct c) pa = Some p -> Permutation (combine el fa) (combine (sEls p) (sFas p)) -> length fa = length el ->
  validFaces (at_ nPaEls pa) nElFas (length el) (map (fun e => e - first pa) el) fa.
Proof.
  intros Hpa Hp PM L. destruct comm as (ES & _). destruct (C28_each_face_once _ _ _ _ _ MI) as (st & E & _ & H). assert (st = cStruct c) as -> by congruence. destruct (H pa p Hp) as (ND & IFF & _).
  rewrite (send_pairs _ _ Hpa Hp) in PM. assert (ND' : NoDup (combine el fa)) by (eapply Permutation_NoDup; [symmetry; exact PM|auto]).
  assert (IN : forall k e f, nth_error el k = Some e -> nth_error fa k = Some f -> first pa <= e < first pa + at_ nPaEls pa /\ f < nElFas).
  { intros k e f He Hf. assert (I : In (e, f) (combine el fa)) by (apply (nth_error_In _ k); rewrite nth_error_combine, He, Hf; reflexivity). rewrite PM in I. apply in_map_iff in I as ((((tg & pa') & tg') & ef) & Q & I). cbn in Q. subst ef.
    apply IFF in I as (I1 & I2 & _ & ad & (I3 & _) & _). apply (inPa _ _ _ _ _ _ AI e pa I1) in I2. rewrite firstEl_S in I2 by auto. lia. }
  assert (EX : forall k, k < length el -> exists e f, nth_error el k = Some e /\ nth_error fa k = Some f).
  { intros k Hk. destruct (nth_error el k) eqn:E1; [|apply nth_error_None in E1; lia]. destruct (nth_error fa k) eqn:E2; [|apply nth_error_None in E2; lia]. eauto. }
  split; [apply map_length|]. split; [auto|]. split; [|split].
  - intros k e He. rewrite nth_error_map in He. destruct (nth_error el k) as [e'|] eqn:Ek; [|discriminate]. cbn in He. inversion He; subst. assert (k < length el) by (apply nth_error_Some; congruence). destruct (EX k) as (e1 & f1 & E1 & E2); auto.
    assert (e1 = e') as -> by congruence. destruct (IN k e' f1 E1 E2). lia.
  - intros k f Hf. assert (k < length el) by (rewrite <- L; apply nth_error_Some; congruence). destruct (EX k) as (e1 & f1 & E1 & E2); auto. assert (f1 = f) as -> by congruence. apply (IN k e1 f E1 E2).
  - intros k k' Hk Hk' Q1 Q2. rewrite !nth_error_map in Q1. destruct (EX k Hk) as (e1 & f1 & E1 & E2). destruct (EX k' Hk') as (e2 & f2 & E3 & E4). rewrite E1, E3 in Q1. rewrite E2, E4 in Q2. cbn in Q1. inversion Q1. inversion Q2.
    destruct (IN _ _ _ E1 E2). destruct (IN _ _ _ E3 E4). assert (e1 = e2) as -> by lia. subst f2.
    apply (proj1 (NoDup_nth_error (combine el fa)) ND'); [rewrite combine_length; lia|]. rewrite !nth_error_combine, E1, E2, E3, E4. reflexivity.
Qed.
End Ranks.

(** The annotations of every rank describe a mesh part: its elements are the partition's, its faces to send and to receive are
    valid faces of the rank and are listed once. *)
Theorem C49_mesh_parts nTgs nElFas nEls elFaEl nPaEls elTg garbage c pa :
  annotIn nTgs nElFas nEls elFaEl nPaEls elTg -> communication garbage nTgs nElFas nEls elFaEl (length nPaEls) nPaEls elTg = Ok c -> pa < length nPaEls ->
  let x := rankPart nTgs nElFas elFaEl nPaEls c pa in
  part_ok x /\ validFaces (xEls x) nElFas (nFaces (xChs x)) (rankRecvEl c pa) (rankRecvFa c pa) /\
  exists rest, getStructPa c pa = Ok (encode (xChs x) ++ rest).
Proof.
  intros AI EC Hpa. cbv zeta. destruct (comm _ _ _ _ _ _ _ _ AI EC) as (ES & LS & _ & HC). destruct (nth_error (cStruct c) pa) as [p|] eqn:Hp; [|apply nth_error_None in Hp; lia].
  destruct (HC pa p Hp) as (H0 & H1 & H2 & H3 & H4 & H5). destruct (lengths _ _ _ _ _ _ AI _ _ _ ES Hp) as (L1 & L2 & L3 & L4).
  unfold part_ok. rewrite H1, H2, H3, H4, H5, L4. cbn [rankPart xEls xElFas xElFaEl xIn xSe]. destruct (sum_all _ _ _ _ _ _ _ _ AI EC pa Hpa) as (-> & ->).
  split; [split; [eapply size_pa; eauto|split; [|split]]|split; auto].
  - unfold localAdj. rewrite map_length, seq_length. reflexivity.
  - intros k ad Hk. unfold localAdj in Hk. rewrite nth_error_map in Hk. destruct (nth_error (seq 0 _) k) as [j|]; [|discriminate]. cbn [option_map] in Hk. destruct (nth_error elFaEl _) as [[a|]|]; try discriminate.
    destruct (Nat.leb_spec (firstEl nPaEls pa) a); cbn [andb] in Hk; [|discriminate]. destruct (Nat.ltb_spec a (firstEl nPaEls pa + at_ nPaEls pa)); [|discriminate]. inversion Hk; subst. lia.
  - eapply valid_gen; eauto.
  - rewrite <- L3. eapply valid_gen; eauto; [|congruence]. eapply recv_pairs; eauto.
Qed.
Print Assumptions C49_mesh_parts.

(** Element [el] of a rank is in the time group which the preprocessor assigned; the time group behind a face is the group of the
    adjacent element of the whole mesh, also if it belongs to another rank. *)
Theorem C49_groups nTgs nElFas nEls elFaEl nPaEls elTg garbage c pa el fa tg :
  annotIn nTgs nElFas nEls elFaEl nPaEls elTg -> communication garbage nTgs nElFas nEls elFaEl (length nPaEls) nPaEls elTg = Ok c ->
  pa < length nPaEls -> el < at_ nPaEls pa -> fa < nElFas ->
  let x := rankPart nTgs nElFas elFaEl nPaEls c pa in
  let g := firstEl nPaEls pa + el in
  (inTg (xIn x) (xSe x) el tg <-> at_ elTg g = tg) /\
  (tgBehind x el fa tg <->
    (exists ad, face nElFas elFaEl g fa ad /\ at_ elTg ad = tg) \/ (nth_error elFaEl (g * nElFas + fa) = Some None /\ at_ elTg g = tg)).
Proof.
  intros AI EC Hpa He Hf. cbv zeta. pose proof (inTg_own _ _ _ _ _ _ _ _ AI EC) as IO. pose proof (ai_mesh _ _ _ _ _ _ AI) as MI. pose proof (commTg_iff _ _ _ _ _ _ _ _ AI EC pa) as CT.
  assert (G : forall el' tg', el' < at_ nPaEls pa -> inTg (xIn (rankPart nTgs nElFas elFaEl nPaEls c pa)) (xSe (rankPart nTgs nElFas elFaEl nPaEls c pa)) el' tg' <-> at_ elTg (firstEl nPaEls pa + el') = tg').
  { intros el' tg' He'. split; [|intros <-; auto]. intros I. eapply inTg_unique; [|exact I]. auto. }
  split; [auto|]. set (x := rankPart nTgs nElFas elFaEl nPaEls c pa) in *. set (g := firstEl nPaEls pa + el) in *.
  pose proof (firstEl_S nPaEls pa Hpa) as FS. destruct (range_pa _ _ _ _ _ _ AI pa g Hpa ltac:(unfold g; lia)) as (G1 & G2).
  pose proof (localAdj_at nElFas elFaEl nPaEls pa el fa Hpa He Hf) as LA. fold g in LA.
  assert (XA : nth_error (xElFaEl x) (el * xElFas x + fa) = nth_error (localAdj nElFas elFaEl (firstEl nPaEls pa) (at_ nPaEls pa)) (el * nElFas + fa)) by reflexivity.
  unfold tgBehind. rewrite XA, LA. clear XA LA. change (xElFas x) with nElFas.
  destruct (mi_mesh _ _ _ _ _ MI) as (ML & MB & _). destruct (rd_adj nElFas nEls elFaEl g fa ML G1 Hf) as (o & _ & Ea). destruct o as [ad|].
  - assert (La : ad < nEls) by (apply (MB g ad G1); exists fa; auto).
    assert (FACE : forall ad', face nElFas elFaEl g fa ad' <-> ad' = ad) by (intros ad'; unfold face; rewrite Ea; split; [intros (_ & Q); congruence|intros ->; auto]).
    rewrite Ea. destruct (Nat.leb_spec (firstEl nPaEls pa) ad) as [B1|B1]; [destruct (Nat.ltb_spec ad (firstEl nPaEls pa + at_ nPaEls pa)) as [B2|B2]|]; cbn [andb].
    + split.
      * intros (_ & [(a & Q & I)|(Q & _)]); [|discriminate]. inversion Q; subst a. apply G in I; [|lia]. left. exists ad. split; [now apply FACE|]. rewrite <- I. f_equal. lia.
      * intros [(a & F & T)|(Q & _)]; [|discriminate]. apply FACE in F as ->. split; auto. left. exists (ad - firstEl nPaEls pa). split; auto. apply G; [lia|]. rewrite <- T. f_equal. lia.
    + assert (NP : at_ (partOf nPaEls) ad <> pa) by (intros Q; apply (inPa _ _ _ _ _ _ AI ad pa La) in Q; lia).
      split.
      * intros (_ & [(a & Q & I)|(_ & [I|(I & _)])]); [discriminate| |].
        -- apply CT in I as (a & F & _ & T); auto. left. exists a. auto.
        -- exfalso. apply (I (at_ elTg ad)). apply CT; auto. exists ad. split; [now apply FACE|auto].
      * intros [(a & F & T)|(Q & _)]; [|discriminate]. split; auto. right. split; auto. left. apply CT; auto. exists a. split; auto. apply FACE in F as ->. auto.
    + assert (NP : at_ (partOf nPaEls) ad <> pa) by (intros Q; apply (inPa _ _ _ _ _ _ AI ad pa La) in Q; lia).
      split.
      * intros (_ & [(a & Q & I)|(_ & [I|(I & _)])]); [discriminate| |].
        -- apply CT in I as (a & F & _ & T); auto. left. exists a. auto.
        -- exfalso. apply (I (at_ elTg ad)). apply CT; auto. exists ad. split; [now apply FACE|auto].
      * intros [(a & F & T)|(Q & _)]; [|discriminate]. split; auto. right. split; auto. left. apply CT; auto. exists a. split; auto. apply FACE in F as ->. auto.
  - rewrite Ea. assert (NF : forall tg', ~ commTg (xChs x) (xSendFa x) (xSendEl x) el fa tg') by (intros tg' Q; apply CT in Q as (a & (_ & F) & _); auto; fold g in F; congruence).
    split.
    + intros (_ & [(a & Q & _)|(_ & [I|(_ & I)])]); [discriminate|exfalso; eapply NF; eauto|]. right. split; auto. apply G in I; auto.
    + intros [(a & (_ & Q) & _)|(_ & T)]; [congruence|]. split; auto. right. split; auto. right. split; auto. now apply G.
Qed.
Print Assumptions C49_groups.

(** What rank [r'] receives as face [i] of a channel is what its peer sends as face [i] of the mirrored channel, and both are
    the two sides of one face of the whole mesh. *)
Theorem C49_two_sides nTgs nElFas nEls elFaEl nPaEls elTg garbage c r' ch' c' :
  annotIn nTgs nElFas nEls elFaEl nPaEls elTg -> communication garbage nTgs nElFas nEls elFaEl (length nPaEls) nPaEls elTg = Ok c -> r' < length nPaEls ->
  let rank := rankPart nTgs nElFas elFaEl nPaEls c in
  nth_error (xChs (rank r')) ch' = Some c' ->
  let r := cRa c' in
  r < length nPaEls /\ r <> r' /\ exists ch ca, nth_error (xChs (rank r)) ch = Some ca /\ mirror r r' ca c' /\
    forall i, i < cN c' -> exists se sf re rf,
      nth_error (xSendEl (rank r)) (faceNo (xChs (rank r)) ch i) = Some se /\ nth_error (xSendFa (rank r)) (faceNo (xChs (rank r)) ch i) = Some sf /\
      nth_error (rankRecvEl c r') (faceNo (xChs (rank r')) ch' i) = Some re /\ nth_error (rankRecvFa c r') (faceNo (xChs (rank r')) ch' i) = Some rf /\
      face nElFas elFaEl (firstEl nPaEls r + se) sf (firstEl nPaEls r' + re) /\ face nElFas elFaEl (firstEl nPaEls r' + re) rf (firstEl nPaEls r + se) /\
      at_ elTg (firstEl nPaEls r + se) = cTg ca /\ at_ elTg (firstEl nPaEls r' + re) = cTg c'.
Proof.
  intros AI EC Hr' rank Hc' r. pose proof (ai_mesh _ _ _ _ _ _ AI) as MI. destruct (comm _ _ _ _ _ _ _ _ AI EC) as (ES & LS & _ & HC).
  destruct (struct_pa _ _ _ _ _ _ _ _ AI EC r' Hr') as (p & Hp & EV & X). destruct (HC r' p Hp) as (_ & H1 & _). pose proof Hc' as Hc0. unfold rank in Hc'. rewrite H1, (msgs_chans _ EV), nth_error_map in Hc'.
  destruct (nth_error (msgs p) ch') as [x|] eqn:Ex; [|discriminate]. cbn in Hc'. inversion Hc'; subst c'. clear Hc'.
  destruct (In_msgs _ _ (nth_error_In _ _ Ex)) as (tr & s & Ht & T & Ms & Mr).
  destruct (C29_same_order _ _ _ _ _ _ MI ES r' p tr s _ Hp Ht Ms) as (re & trs' & tr' & m' & R & RP & RT & Hp' & Ht' & T' & Hm' & P' & G' & L1 & L2 & L3 & SIDES & PM).
  assert (re = mRe x) as -> by congruence. cbn [chOf cRa] in r. fold r in Hp'.
  assert (Hr : r < length nPaEls) by (rewrite <- LS; apply nth_error_Some; congruence).
  assert (NE : exists el fa, In (mTr x, msPa (mSe x), msTg (mSe x), (el, fa)) (sentBy p)).
  { destruct (C28_each_face_once _ _ _ _ _ MI) as (st & E & _ & H). assert (st = cStruct c) as -> by congruence. destruct (H r' p Hp) as (_ & _ & _ & LN). destruct (LN tr (mSe x) Ht (nth_error_In _ _ Ms)) as (LP & LE).
    destruct (nth_error (msEl (mSe x)) 0) as [e|] eqn:E1; [|apply nth_error_None in E1; lia]. destruct (nth_error (msFa (mSe x)) 0) as [f|] eqn:E2; [|apply nth_error_None in E2; lia].
    exists e, f. apply (sent_msgs _ _ _ _ _ _ _ _ AI EC r' p); auto. exists ch', x, 0. auto 10. }
  destruct NE as (e0 & f0 & I0). apply (sent_iff _ _ _ _ _ _ _ _ AI EC r' p) in I0 as (_ & _ & _ & ad0 & _ & A1 & A2 & _); auto.
  split; auto. split; auto.
  destruct (struct_pa _ _ _ _ _ _ _ _ AI EC r Hr) as (q & Hq & EVq & Xq). assert (trs' = q) as -> by congruence. clear Hp'.
  apply In_nth_error in Hm' as (s' & Hm'). destruct (nth_error (trRecv tr') s') as [r0|] eqn:Er0; [|apply nth_error_None in Er0; rewrite <- (EVq tr' Ht') in Er0; assert (s' < length (trSend tr')) by (apply nth_error_Some; congruence); lia].
  pose proof (msgs_In _ _ _ _ _ Ht' Hm' Er0) as Iy. set (y := (trTg tr', m', r0)) in *. apply In_nth_error in Iy as (ch & Ey). exists ch, (chOf y).
  destruct (HC r q Hq) as (_ & H1q & _). split; [unfold rank; rewrite H1q, (msgs_chans _ EVq), nth_error_map, Ey; reflexivity|].
  assert (YM : mSe y = m') by reflexivity. split.
  { unfold mirror, chOf. cbn [cTg cTgAd cN cRa]. rewrite YM. change (mTr y) with (trTg tr'). repeat split; auto; congruence. }
  intros i Hi. cbn [chOf cN] in Hi.
  destruct (entries _ _ _ _ _ _ _ _ AI EC r' p ch' x i Hr' Hp Ex Hi) as (_ & _ & _ & B3 & B4).
  destruct (entries _ _ _ _ _ _ _ _ AI EC r q ch y i Hr Hq Ey ltac:(rewrite YM; lia)) as (_ & D1 & D2 & _). rewrite YM in D1, D2.
  destruct (nth_error (msEl (mRe x)) i) as [er|] eqn:E1; [|apply nth_error_None in E1; lia]. destruct (nth_error (msFa (mRe x)) i) as [fr|] eqn:E2; [|apply nth_error_None in E2; lia].
  destruct (SIDES i er fr E1 E2) as (es & fs & E3 & E4 & F1 & F2). rewrite E3 in D1. rewrite E4 in D2. cbn [option_map] in *. exists (es - firstEl nPaEls r), fs, (er - firstEl nPaEls r'), fr.
  assert (I1 : In (er, fr) (combine (msEl (mSe x)) (msFa (mSe x)))) by (rewrite <- PM; apply (nth_error_In _ i); rewrite nth_error_combine, E1, E2; reflexivity).
  apply In_nth_error in I1 as (j & I1). rewrite nth_error_combine in I1. destruct (nth_error (msEl (mSe x)) j) as [er'|] eqn:E5; [|discriminate]. destruct (nth_error (msFa (mSe x)) j) as [fr'|] eqn:E6; [|discriminate]. inversion I1; subst er' fr'.
  assert (I2 : In (mTr x, msPa (mSe x), msTg (mSe x), (er, fr)) (sentBy p)) by (apply (sent_msgs _ _ _ _ _ _ _ _ AI EC r' p); auto; exists ch', x, j; auto 10).
  apply (sent_iff _ _ _ _ _ _ _ _ AI EC r' p) in I2 as (J1 & J2 & J3 & _); auto. apply (inPa _ _ _ _ _ _ AI) in J2; auto.
  assert (I3 : In (mTr y, msPa (mSe y), msTg (mSe y), (es, fs)) (sentBy q)) by (apply (sent_msgs _ _ _ _ _ _ _ _ AI EC r q); auto; exists ch, y, i; rewrite YM; auto 10).
  apply (sent_iff _ _ _ _ _ _ _ _ AI EC r q) in I3 as (K1 & K2 & K3 & _); auto. apply (inPa _ _ _ _ _ _ AI) in K2; auto.
  replace (firstEl nPaEls r + (es - firstEl nPaEls r)) with es by lia. replace (firstEl nPaEls r' + (er - firstEl nPaEls r')) with er by lia. cbn [chOf cTg].
  repeat (split; [first [exact D1|exact D2|exact B3|exact B4|exact F1|exact F2|exact K3|exact J3]|]). exact J3.
Qed.
Print Assumptions C49_two_sides.

(** The solver's set-up of all ranks meets the conditions of C15: the ranks can exchange data. *)
Theorem C49_ranks_communicate nTgs nElFas nEls elFaEl nPaEls elTg garbage c nCB nByFa0 nByCh nByFa data :
  annotIn nTgs nElFas nEls elFaEl nPaEls elTg -> communication garbage nTgs nElFas nEls elFaEl (length nPaEls) nPaEls elTg = Ok c -> nCB = 1 \/ nCB = 2 ->
  let chs r := xChs (rankPart nTgs nElFas elFaEl nPaEls c r) in
  (forall r, r < length nPaEls -> length (data r) = list_sum (map (fun ch => cN ch * nByFa + nByCh) (chs r))) ->
  exists dist, world_ok (mkWorld (length nPaEls) chs dist data) nTgs nElFas nByFa0 nCB nByCh nByFa /\
    forall r, r < length nPaEls -> let x := rankPart nTgs nElFas elFaEl nPaEls c r in
      setup nTgs nElFas (xEls x) nByFa0 (chs r) (xSendFa x) (xSendEl x) (rankRecvFa c r) (rankRecvEl c r) nCB (dist r).
Proof.
  intros AI EC HB chs HD. pose proof (ai_mesh _ _ _ _ _ _ AI) as MI.
  pose (d0 := mkDist 0 0 0 0 [] [] [] [] []).
  pose (dist_ := fun r => let x := rankPart nTgs nElFas elFaEl nPaEls c r in match distInit nTgs nElFas (xEls x) nByFa0 (Some (encode (chs r))) (xSendFa x) (xSendEl x) (rankRecvFa c r) (rankRecvEl c r) nCB with Ok d => d | Er _ => d0 end).
  assert (SU : forall r, r < length nPaEls -> let x := rankPart nTgs nElFas elFaEl nPaEls c r in
      setup nTgs nElFas (xEls x) nByFa0 (chs r) (xSendFa x) (xSendEl x) (rankRecvFa c r) (rankRecvEl c r) nCB (dist_ r)).
  { intros r Hr. cbv zeta. destruct (C49_mesh_parts _ _ _ _ _ _ _ _ r AI EC Hr) as ((_ & _ & _ & VS) & VR & _). unfold dist_. cbv zeta.
    destruct (C14_setup_succeeds nTgs nElFas _ nByFa0 _ _ _ _ _ nCB VS VR HB) as (d & U). pose proof (u_init _ _ _ _ _ _ _ _ _ _ _ U) as E. cbn [xElFas rankPart] in *. unfold chs. cbn [xChs]. rewrite E. exact U. }
  exists dist_. split; [|exact SU]. intros r Hr. cbn [wRanks wChs wDist wData] in *. destruct (comm _ _ _ _ _ _ _ _ AI EC) as (ES & LS & _ & HC).
  destruct (struct_pa _ _ _ _ _ _ _ _ AI EC r Hr) as (p & Hp & EV & X). destruct (HC r p Hp) as (_ & H1 & _).
  destruct (C28_each_face_once _ _ _ _ _ MI) as (st & E & _ & H). assert (st = cStruct c) as -> by congruence. destruct (H r p Hp) as (_ & IFF & ND & _).
  split; [do 5 eexists; apply (SU r Hr)|]. split; [|split; [|split]].
  - intros ca Hca. unfold chs in Hca. apply In_nth_error in Hca as (ch & Hca).
    destruct (C49_two_sides _ _ _ _ _ _ _ _ r ch ca AI EC Hr Hca) as (R1 & R2 & ch2 & ca2 & A1 & (M1 & M2 & M3 & M4 & M5) & S).
    assert (NZ : 0 < cN ca). { rewrite H1, (msgs_chans _ EV), nth_error_map in Hca. destruct (nth_error (msgs p) ch) as [y|] eqn:Ey; [|discriminate]. cbn in Hca. inversion Hca. cbn [cN chOf].
      destruct (In_msgs _ _ (nth_error_In _ _ Ey)) as (tr & s & Ht & _ & Ms & _). destruct (H r p Hp) as (_ & _ & _ & LN). apply (LN tr (mSe y) Ht (nth_error_In _ _ Ms)). }
    destruct (S 0 NZ) as (se & sf & re & rf & _ & _ & _ & _ & (F1 & F2) & (F3 & F4) & T1 & T2).
    destruct (mi_mesh _ _ _ _ _ MI) as (ML & MB & _).
    assert (forall e f a, nth_error elFaEl (e * nElFas + f) = Some a -> f < nElFas -> e < nEls) as BD by (intros e f a Q Qf; assert (e * nElFas + f < length elFaEl) by (apply nth_error_Some; congruence); nia).
    rewrite <- T2, M2, <- T1. split; apply (ai_tg _ _ _ _ _ _ AI); eapply BD; eauto.
  - unfold chs. rewrite H1. exact ND.
  - apply HD; auto.
  - intros ca Hca. unfold chs in Hca. apply In_nth_error in Hca as (ch & Hca).
    destruct (C49_two_sides _ _ _ _ _ _ _ _ r ch ca AI EC Hr Hca) as (R1 & R2 & ch2 & ca2 & A1 & (M1 & M2 & M3 & M4 & M5) & _). split; auto.
    exists ca2. split; [unfold chs; eapply nth_error_In; eauto|]. unfold mirror. repeat split; auto; congruence.
Qed.
Print Assumptions C49_ranks_communicate.

(** Non-vacuity: a chain of five elements 0 - 1 - 4 - 3 - 2, two partitions and two groups, with a face at either end. *)
Definition exA : list (option nat) := [None; Some 1; Some 0; Some 4; Some 3; None; Some 4; Some 2; Some 1; Some 3].
Definition exTg : list nat := [0; 0; 0; 1; 1].

Ltac small n := destruct n as [|n]; [|destruct n as [|n]; [|destruct n as [|n]; [|destruct n as [|n]; [|destruct n as [|n]; [|lia]]]]].

Lemma exA_adj el ad : adj 2 exA el ad <-> In (el, ad) [(0, 1); (1, 0); (1, 4); (4, 1); (4, 3); (3, 4); (3, 2); (2, 3)].
Proof.
  unfold adj. split.
  - intros (fa & Hf & H). assert (el * 2 + fa < 10) by (change 10 with (length exA); apply nth_error_Some; congruence).
    destruct fa as [|[|fa]]; [| |lia]; small el; cbn in H; inversion H; subst; cbn; tauto.
  - cbn [In]. intros [H|[H|[H|[H|[H|[H|[H|[H|[]]]]]]]]]; inversion H; subst; [exists 1|exists 0|exists 1|exists 0|exists 1|exists 0|exists 1|exists 0]; cbn; auto.
Qed.
Lemma exA_crosses el : crosses 2 exA (partOf [2; 3]) el <-> el = 1 \/ el = 4.
Proof.
  unfold crosses. split.
  - intros (ad & A & N). apply exA_adj in A. cbn [In] in A. destruct A as [H|[H|[H|[H|[H|[H|[H|[H|[]]]]]]]]]; inversion H; subst; cbn in N; try lia; tauto.
  - intros [-> | ->]; [exists 4|exists 1]; (split; [apply exA_adj; cbn; tauto|cbn; lia]).
Qed.

Example exA_in : annotIn 2 2 5 exA [2; 3] exTg.
Proof.
  split; [split|cbn; lia|].
  - split; [reflexivity|]. split; intros el ad.
    + intros _ A. apply exA_adj in A. cbn [In] in A. destruct A as [H|[H|[H|[H|[H|[H|[H|[H|[]]]]]]]]]; inversion H; lia.
    + rewrite !exA_adj. cbn [In]. intros [H|[H|[H|[H|[H|[H|[H|[H|[]]]]]]]]]; inversion H; tauto.
  - reflexivity.
  - reflexivity.
  - lia.
  - intros el f f' ad He Hf Hf'. destruct f as [|[|f]]; [| |lia]; (destruct f' as [|[|f']]; [| |lia]); auto; small el; cbn; congruence.
  - intros p a b Ha Hb CA CB. apply exA_crosses in CA. apply exA_crosses in CB. destruct CA as [-> | ->], CB as [-> | ->]; cbn; lia.
  - intros a b Hab Hb P. unfold precedes in P. rewrite !exA_crosses in P. small b; small a; cbn in P; lia.
  - intros el He. small el; cbn; lia.
Qed.

(** The annotations of the example. *)
Example exA_comm : exists c, communication (fun i => i + 7) 2 2 5 exA 2 [2; 3] exTg = Ok c /\
  cChs c = encode [mkChan 0 1 1 1] ++ encode [mkChan 1 0 0 1] /\ cElsIn c = [1; 0; 1; 1] /\ cElsSe c = [1; 0; 0; 1] /\
  sendEl (cSeRe c) = [1; 2] /\ sendFa (cSeRe c) = [1; 0] /\ recvEl (cSeRe c) = [1; 2].
Proof. eexists. split; [vm_compute; reflexivity|]. repeat split. Qed.

(** The structure is not set up if a partition without neighbours lies between two communicating partitions: elements 0 and 2 are
    adjacent and belong to partitions 0 and 2, element 1 is partition 1. *)
Theorem C28_isolated_partition_refuted : exists nElFas nEls elFaEl elPa elTg,
  mesh_ok nElFas nEls elFaEl /\ length elPa = nEls /\ length elTg = nEls /\ 0 < nEls /\ sharesOne nElFas nEls elFaEl /\ ordered nElFas nEls elFaEl elPa (at_ elTg) /\
  getStruct nElFas nEls elFaEl elPa elTg = Er Echeck.
Proof.
  exists 1, 3, [Some 2; None; Some 0], [0; 1; 2], [0; 0; 0].
  assert (ADJ : forall el ad, adj 1 [Some 2; None; Some 0] el ad -> (el = 0 /\ ad = 2) \/ (el = 2 /\ ad = 0)).
  { intros el ad (fa & Hf & E). assert (fa = 0) as -> by lia. destruct el as [|[|[|el]]]; cbn in E; try discriminate; [inversion E; auto|inversion E; auto|]. destruct el; discriminate. }
  split; [|split; [reflexivity|split; [reflexivity|split; [lia|split; [|split]]]]].
  - split; [reflexivity|]. split; intros el ad; [intros _ A; apply ADJ in A; lia|]. intros A. apply ADJ in A as [(-> & ->)|(-> & ->)]; exists 0; cbn; auto.
  - intros el f f' ad _ Hf Hf'. lia.
  - intros a b Hab Hb P. unfold precedes in P. destruct b as [|[|[|b]]]; try lia; destruct a as [|[|[|a]]]; try lia; cbn in P; lia.
  - vm_compute. reflexivity.
Qed.
Print Assumptions C28_isolated_partition_refuted.
