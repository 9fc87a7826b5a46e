(** Proofs about the communication structure of the preprocessor, used by Props_Comm.v. *)
From Coq Require Import Permutation Sorted.
From Verif Require Import Util SharedProofs Groups Props_Groups Partition Comm Props_Part.
Open Scope nat_scope.

Lemma NoDup_flat {A B} (f : A -> list B) l : NoDup l -> (forall a, In a l -> NoDup (f a)) -> (forall a b x, In a l -> In b l -> In x (f a) -> In x (f b) -> a = b) -> NoDup (flat_map f l).
Proof.
  induction 1 as [|a l N D IH]; cbn; intros H1 H2; [constructor|].
  assert (X : NoDup (flat_map f l)) by (apply IH; eauto).
  assert (Y : forall x, In x (f a) -> ~ In x (flat_map f l)).
  { intros x Hx Q. apply in_flat_map in Q as (b & Hb & Q). assert (a = b) by (apply (H2 a b x); auto). congruence. }
  specialize (H1 a (or_introl eq_refl)). clear IH H2. induction (f a) as [|x r IH]; cbn; auto. inversion H1; subst. constructor.
  - rewrite in_app_iff. intros [Q|Q]; [auto|]. apply (Y x); cbn; auto.
  - apply IH; auto. intros z Hz. apply Y. now right.
Qed.
Lemma mapM_ok {A B} (f : A -> res B) (R : A -> B -> Prop) l : (forall a, In a l -> exists b, f a = Ok b /\ R a b) -> exists r, mapM f l = Ok r /\ Forall2 R l r.
Proof.
  induction l as [|a l IH]; intros H; [exists []; split; [reflexivity|constructor]|]. destruct (H a (or_introl eq_refl)) as (b & E & Hb).
  destruct IH as (r & E' & Hr); [intros; apply H; now right|]. exists (b :: r). cbn. rewrite E. cbn. rewrite E'. split; [reflexivity|constructor; auto].
Qed.
Lemma mapMi_ok {A B} (f : nat -> A -> res B) (R : nat -> A -> B -> Prop) : forall l k, (forall i a, nth_error l i = Some a -> exists b, f (k + i) a = Ok b /\ R (k + i) a b) ->
  exists r, mapMi f k l = Ok r /\ length r = length l /\ forall i a, nth_error l i = Some a -> exists b, nth_error r i = Some b /\ R (k + i) a b.
Proof.
  induction l as [|a l IH]; intros k H; [exists []; repeat split; auto; intros [|i] a E; discriminate|].
  destruct (H 0 a eq_refl) as (b & E & Hb). rewrite Nat.add_0_r in *.
  destruct (IH (S k)) as (r & E' & L & Hr); [intros i x Hx; replace (S k + i) with (k + S i) by lia; apply H; auto|].
  exists (b :: r). cbn [mapMi]. rewrite E. cbn [bind]. rewrite E'. split; [reflexivity|]. split; [cbn; lia|].
  intros [|i] x Hx; cbn [nth_error] in *; [inversion Hx; subst; exists b; rewrite Nat.add_0_r; auto|]. replace (k + S i) with (S k + i) by lia. auto.
Qed.
Lemma Forall2_map_l {A B C} (R : B -> C -> Prop) (g : A -> B) l l' : Forall2 R (map g l) l' <-> Forall2 (fun a c => R (g a) c) l l'.
Proof.
  split.
  - revert l'. induction l as [|a l IH]; cbn; intros l' H; inversion H; subst; constructor; auto.
  - induction 1; cbn; constructor; auto.
Qed.
Lemma pairLt_irr a : pairLt a a = false.
Proof. unfold pairLt. rewrite !Nat.ltb_irrefl, Nat.eqb_refl. reflexivity. Qed.
Lemma incLast_snoc l n : incLast (l ++ [n]) = Ok (l ++ [n + 1]).
Proof.
  induction l as [|a l IH]; auto. change ((a :: l) ++ [n]) with (a :: (l ++ [n])).
  assert (X : forall r, r <> [] -> incLast (a :: r) = (l <- incLast r ;; Ok (a :: l))) by (intros [|]; [congruence|reflexivity]).
  rewrite X by (destruct l; discriminate). rewrite IH. reflexivity.
Qed.

Section Comm.
Variables (nElFas nEls : nat) (elFaEl : list (option nat)) (elPa elTg : list nat).
Hypothesis M : mesh_ok nElFas nEls elFaEl.
Hypothesis LP : length elPa = nEls.
Hypothesis LT : length elTg = nEls.

Notation pa el := (at_ elPa el).
Notation tg el := (at_ elTg el).
Notation at3 el fa := (nth_error elFaEl (el * nElFas + fa)).
Notation ent := (nat * nat * nat)%type.

(** Crossing faces in the order of the elements and faces: element, face, adjacent element. *)
Definition faceEnt (el fa : nat) : list ent :=
  match at3 el fa with Some (Some ad) => if pa ad =? pa el then [] else [(el, fa, ad)] | _ => [] end.
Definition elEnt (el n : nat) : list ent := flat_map (faceEnt el) (seq 0 n).
Definition cr (lo n : nat) : list ent := flat_map (fun el => elEnt el nElFas) (seq lo n).

Lemma In_faceEnt el fa x : In x (faceEnt el fa) <-> exists ad, x = (el, fa, ad) /\ at3 el fa = Some (Some ad) /\ pa ad <> pa el.
Proof.
  unfold faceEnt. destruct (at3 el fa) as [[ad|]|]; try (split; [intros []|intros (? & _ & ? & _); discriminate]).
  destruct (Nat.eqb_spec (pa ad) (pa el)) as [Q|Q]; cbn.
  - split; [intros []|]. intros (a & _ & E & N). inversion E; subst. congruence.
  - split; [intros [<-|[]]; eauto|]. intros (a & -> & E & _). inversion E; subst. auto.
Qed.
Lemma In_elEnt el n x : In x (elEnt el n) <-> exists fa ad, x = (el, fa, ad) /\ fa < n /\ at3 el fa = Some (Some ad) /\ pa ad <> pa el.
Proof.
  unfold elEnt. rewrite in_flat_map. split.
  - intros (fa & F & H). apply in_seq in F. apply In_faceEnt in H as (ad & -> & H). exists fa, ad. repeat split; try tauto; lia.
  - intros (fa & ad & -> & F & H). exists fa. split; [apply in_seq; lia|]. apply In_faceEnt. eauto.
Qed.
Lemma In_cr lo n el fa ad : In (el, fa, ad) (cr lo n) <-> lo <= el < lo + n /\ fa < nElFas /\ at3 el fa = Some (Some ad) /\ pa ad <> pa el.
Proof.
  unfold cr. rewrite in_flat_map. split.
  - intros (e & F & H). apply in_seq in F. apply In_elEnt in H as (f & a & E & H). inversion E; subst. tauto.
  - intros (F & H). exists el. split; [apply in_seq; lia|]. apply In_elEnt. exists fa, ad. tauto.
Qed.
Lemma NoDup_cr lo n : NoDup (cr lo n).
Proof.
  apply NoDup_flat; [apply seq_NoDup| |].
  - intros el _. apply NoDup_flat; [apply seq_NoDup| |].
    + intros fa _. unfold faceEnt. destruct (at3 el fa) as [[ad|]|]; try constructor. destruct (pa ad =? pa el); repeat constructor; auto.
    + intros a b x _ _ A B. apply In_faceEnt in A as (? & -> & _). apply In_faceEnt in B as (? & E & _). congruence.
  - intros a b x _ _ A B. apply In_elEnt in A as (? & ? & -> & _). apply In_elEnt in B as (? & ? & E & _). congruence.
Qed.
Lemma cr_app lo n m : cr lo (n + m) = cr lo n ++ cr (lo + n) m.
Proof. unfold cr. now rewrite seq_app, flat_map_app. Qed.

(** two nested loops over elements and faces *)
Lemma faces_loop {T} (F : list ent -> T) (outer : nat -> T -> res T) (body : nat -> nat -> T -> res T) lo n :
  (forall el l, lo <= el < lo + n -> outer el (F l) = for_ 0 nElFas (body el) (F l)) ->
  (forall el fa l, lo <= el < lo + n -> fa < nElFas -> l = cr lo (el - lo) ++ elEnt el fa -> body el fa (F l) = Ok (F (l ++ faceEnt el fa))) ->
  for_ lo (lo + n) outer (F []) = Ok (F (cr lo n)).
Proof.
  intros HO HB.
  destruct (for_ok (fun k s => s = F (cr lo (k - lo))) lo (lo + n) outer (F [])) as (s & E & ->); [lia|now rewrite Nat.sub_diag| |].
  - intros k s Hk ->. rewrite HO by lia.
    destruct (for_ok (fun fa s => s = F (cr lo (k - lo) ++ elEnt k fa)) 0 nElFas (body k) (F (cr lo (k - lo)))) as (s & E & ->); [lia|cbn; now rewrite app_nil_r| |].
    + intros fa s Hfa ->. eexists. split; [apply HB; auto; lia|]. f_equal. rewrite <- app_assoc. f_equal. unfold elEnt. rewrite seq_snoc, flat_map_app. cbn. now rewrite app_nil_r.
    + eexists. split; [exact E|]. f_equal. replace (S k - lo) with (k - lo + 1) by lia. rewrite cr_app. f_equal. unfold cr. cbn. rewrite app_nil_r. f_equal. lia.
  - rewrite E. do 3 f_equal. lia.
Qed.

(** ** Pairs *)
Definition pairOf (x : ent) : nat * nat := (pa (snd x), tg (snd x)).
Definition pairsOf (l : list ent) : list (nat * nat) := fold_left (fun acc x => insertPair (pairOf x) acc) l [].
Definition pairltP (a b : nat * nat) : Prop := pairLt a b = true.

Lemma pairLt_total a b : pairLt a b = false -> pairLt b a = false -> a = b.
Proof. destruct a, b. unfold pairLt. cbn [fst snd]. intros. f_equal; lia. Qed.
Lemma pairLt_trans a b c : pairltP a b -> pairltP b c -> pairltP a c.
Proof. destruct a, b, c. unfold pairltP, pairLt. cbn [fst snd]. lia. Qed.
Lemma In_insertPair a b l : In a (insertPair b l) <-> a = b \/ In a l.
Proof.
  induction l as [|c l IH]; cbn; [intuition|]. destruct (pairLt b c) eqn:E1; [cbn; intuition|]. destruct (pairLt c b) eqn:E2; cbn; [rewrite IH; intuition|].
  rewrite (pairLt_total b c E1 E2). intuition.
Qed.
Lemma sorted_insertPair a l : StronglySorted pairltP l -> StronglySorted pairltP (insertPair a l).
Proof.
  induction 1 as [|b l S IH F]; cbn; [repeat constructor|]. destruct (pairLt a b) eqn:E1.
  - constructor; [constructor; auto|]. constructor; auto. eapply Forall_impl; [|exact F]. intros c. now apply pairLt_trans.
  - destruct (pairLt b a) eqn:E2; [|constructor; auto]. constructor; auto. apply Forall_forall. intros c Hc. apply In_insertPair in Hc as [->|Hc]; auto. rewrite Forall_forall in F. auto.
Qed.
Lemma pairsOf_snoc l x : pairsOf (l ++ [x]) = insertPair (pairOf x) (pairsOf l).
Proof. unfold pairsOf. now rewrite fold_left_app. Qed.
Lemma In_pairsOf l p : In p (pairsOf l) <-> exists x, In x l /\ pairOf x = p.
Proof.
  induction l as [|x l IH] using rev_ind; [cbn; firstorder|]. rewrite pairsOf_snoc, In_insertPair, IH. split.
  - intros [->|(y & Hy & <-)]; [exists x|exists y]; rewrite in_app_iff; cbn; auto.
  - intros (y & Hy & <-). apply in_app_iff in Hy as [Hy|[<-|[]]]; eauto.
Qed.
Lemma sorted_pairsOf l : StronglySorted pairltP (pairsOf l).
Proof. induction l as [|x l IH] using rev_ind; [constructor|]. rewrite pairsOf_snoc. now apply sorted_insertPair. Qed.
Lemma sorted_NoDup l : StronglySorted pairltP l -> NoDup l.
Proof.
  induction 1 as [|b l S IH F]; constructor; auto. intros H. rewrite Forall_forall in F. specialize (F b H). unfold pairltP in F. rewrite pairLt_irr in F. discriminate.
Qed.

Lemma ad_lt el fa ad : el < nEls -> fa < nElFas -> at3 el fa = Some (Some ad) -> ad < nEls.
Proof. intros He Hf E. destruct M as (_ & MR & _). apply (MR el); auto. exists fa. auto. Qed.

(** uniform regions *)
Definition uniform (lo n p t : nat) : Prop := 0 < n /\ lo + n <= nEls /\ forall el, lo <= el < lo + n -> pa el = p /\ tg el = t.

Lemma getPaTgPairs_ok lo n p t : uniform lo n p t -> getPaTgPairs nElFas lo n elFaEl elTg elPa = Ok (pairsOf (cr lo n)).
Proof.
  intros (Hn & Hl & U). unfold getPaTgPairs. replace (0 <? n) with true by lia. cbn [check bind]. rdn 0. rdn 0. fold (at_ elPa lo) (at_ elTg lo).
  destruct (U lo ltac:(lia)) as (-> & ->).
  match goal with |- for_ _ _ ?o [] = _ => set (outer := o) end.
  apply (faces_loop pairsOf outer (fun el fa pairs => ad <- rd elFaEl (el * nElFas + fa) ;;
      match ad with
      | None => Ok pairs
      | Some ad => adPa <- rd elPa ad ;; adTg <- rd elTg ad ;; Ok (if p =? adPa then pairs else insertPair (adPa, adTg) pairs)
      end)).
  - intros el l Hel. unfold outer. rdn 0. rdn 0. fold (at_ elPa el) (at_ elTg el). destruct (U el Hel) as (-> & ->). rewrite !Nat.eqb_refl. cbn [check bind]. reflexivity.
  - intros el fa l Hel Hfa _. destruct M as (ML & MR & _). destruct (rd_adj nElFas nEls elFaEl el fa ML ltac:(lia) Hfa) as (o & -> & Eo). cbn [bind].
    destruct (U el Hel) as (Ep & _). unfold faceEnt. rewrite Eo. destruct o as [ad|]; [|now rewrite app_nil_r].
    assert (ad < nEls) by (apply (ad_lt el fa); auto; lia). rdn 0. rdn 0. fold (at_ elPa ad) (at_ elTg ad). rewrite Ep, (Nat.eqb_sym p). destruct (pa ad =? p); [now rewrite app_nil_r|]. now rewrite pairsOf_snoc.
Qed.

(** ** Messages *)
Fixpoint lastFa (n el ad : nat) : option nat :=
  match n with
  | O => None
  | S n => if (match at3 ad n with Some (Some x) => x =? el | _ => false end) then Some n else lastFa n el ad
  end.
Definition faAdOf (x : ent) : nat := match lastFa nElFas (fst (fst x)) (snd x) with Some f => f | None => 0 end.
Definition chTo (p : nat * nat) (l : list ent) : list ent := filter (fun x => (pa (snd x) =? fst p) && (tg (snd x) =? snd p)) l.
Definition msgOf (l : list ent) (p : nat * nat) : message :=
  mkMessage (fst p) (snd p) (map (fun x => fst (fst x)) (chTo p l)) (map (fun x => snd (fst x)) (chTo p l)) (map (fun x => snd x) (chTo p l)) (map faAdOf (chTo p l)).

Lemma lastFa_some n el ad f : lastFa n el ad = Some f -> f < n /\ at3 ad f = Some (Some el).
Proof.
  induction n as [|n IH]; cbn; [discriminate|]. destruct (at3 ad n) as [[x|]|] eqn:E; try (intros H; apply IH in H; intuition lia).
  destruct (Nat.eqb_spec x el) as [->|]; [intros H; inversion H; subst; auto|intros H; apply IH in H; intuition lia].
Qed.
Lemma lastFa_none n el ad : lastFa n el ad = None -> forall f, f < n -> at3 ad f <> Some (Some el).
Proof.
  induction n as [|n IH]; cbn; intros H f Hf; [lia|]. destruct (Nat.eq_dec f n) as [->|].
  - destruct (at3 ad n) as [[x|]|]; try discriminate. destruct (Nat.eqb_spec x el); [discriminate|congruence].
  - apply IH; [|lia]. destruct (match at3 ad n with Some (Some x) => x =? el | _ => false end); [discriminate|auto].
Qed.
Lemma findFaAd_ok el ad : ad < nEls -> findFaAd nElFas elFaEl el ad = Ok (lastFa nElFas el ad).
Proof.
  intros Ha. unfold findFaAd. destruct (for_ok (fun k s => s = lastFa k el ad) 0 nElFas (fun fa faAd => ad0 <- rd elFaEl (ad * nElFas + fa) ;;
    Ok (match ad0 with Some x => if x =? el then Some fa else faAd | None => faAd end)) None) as (s & -> & ->); auto; [lia|].
  intros k s Hk ->. destruct M as (ML & _). destruct (rd_adj nElFas nEls elFaEl ad k ML Ha ltac:(lia)) as (o & -> & Eo). cbn [bind]. eexists. split; [reflexivity|].
  cbn [lastFa]. rewrite Eo. destruct o as [x|]; auto.
Qed.
(** the adjacent element's face, by symmetry *)
Lemma faAd_ok el fa ad : el < nEls -> fa < nElFas -> at3 el fa = Some (Some ad) ->
  exists f, lastFa nElFas el ad = Some f /\ f < nElFas /\ at3 ad f = Some (Some el).
Proof.
  intros He Hf E. destruct M as (_ & _ & MS). destruct (MS el ad) as (f & F & G); [exists fa; auto|].
  destruct (lastFa nElFas el ad) as [f'|] eqn:Q; [exists f'; split; auto; now apply lastFa_some|]. exfalso. now apply (lastFa_none _ _ _ Q f).
Qed.

Lemma chTo_app p a b : chTo p (a ++ b) = chTo p a ++ chTo p b.
Proof. apply filter_app. Qed.
Lemma chTo_one_eq p x : pairOf x = p -> chTo p [x] = [x].
Proof. intros <-. unfold chTo, pairOf. cbn. now rewrite !Nat.eqb_refl. Qed.
Lemma chTo_one_ne p x : pairOf x <> p -> chTo p [x] = [].
Proof.
  destruct p as (p & t). unfold pairOf, chTo. cbn. intros H. destruct (Nat.eqb_spec (pa (snd x)) p); destruct (Nat.eqb_spec (tg (snd x)) t); cbn; auto. congruence.
Qed.
Lemma In_chTo p l el fa ad : In (el, fa, ad) (chTo p l) <-> In (el, fa, ad) l /\ pa ad = fst p /\ tg ad = snd p.
Proof. unfold chTo. rewrite filter_In. cbn. rewrite andb_true_iff, !Nat.eqb_eq. tauto. Qed.

Lemma insertMsg_ok pairs l el fa ad : NoDup pairs -> In (pa ad, tg ad) pairs -> el < nEls -> fa < nElFas -> at3 el fa = Some (Some ad) ->
  insertMsg nElFas elFaEl (map (msgOf l) pairs) el fa (pa ad) (tg ad) = Ok (map (msgOf (l ++ [(el, fa, ad)])) pairs).
Proof.
  intros ND I He Hf E. assert (Ha : ad < nEls) by (eapply ad_lt; eauto).
  assert (NE : forall p, p <> (pa ad, tg ad) -> msgOf (l ++ [(el, fa, ad)]) p = msgOf l p).
  { intros p N. unfold msgOf. rewrite chTo_app, chTo_one_ne by (intros Q; apply N; rewrite <- Q; reflexivity). now rewrite app_nil_r. }
  induction ND as [|p pairs N D IH]; [destruct I|]. cbn [map insertMsg]. destruct p as (p & t). cbn [msgOf msPa msTg fst snd].
  destruct (Nat.eqb_spec p (pa ad)) as [Qp|Qp]; [destruct (Nat.eqb_spec t (tg ad)) as [Qt|Qt]|]; cbn [andb].
  - subst p t. rewrite (rd_some _ _ _ E). cbn [bind]. rewrite findFaAd_ok by auto. cbn [bind]. destruct (faAd_ok el fa ad He Hf E) as (f & F & _ & _). rewrite F.
    f_equal. f_equal.
    + unfold msgOf. cbn [fst snd msEl msFa msElAd msFaAd]. rewrite chTo_app, !map_app, chTo_one_eq by reflexivity. cbn [map fst snd]. unfold faAdOf at 3. cbn [fst snd]. now rewrite F.
    + apply map_ext_in. intros q Hq. symmetry. apply NE. congruence.
  - assert (I' : In (pa ad, tg ad) pairs) by (destruct I as [I|I]; [congruence|auto]).
    replace (negb (length (map (msgOf l) pairs) =? 0)) with true by (rewrite map_length; destruct pairs; [destruct I'|reflexivity]). cbn [check bind].
    rewrite IH by auto. cbn [bind]. now rewrite NE by congruence.
  - assert (I' : In (pa ad, tg ad) pairs) by (destruct I as [I|I]; [congruence|auto]).
    replace (negb (length (map (msgOf l) pairs) =? 0)) with true by (rewrite map_length; destruct pairs; [destruct I'|reflexivity]). cbn [check bind].
    rewrite IH by auto. cbn [bind]. now rewrite NE by congruence.
Qed.

Definition sends (lo n : nat) : list message := map (msgOf (cr lo n)) (pairsOf (cr lo n)).

Lemma getMsgsSend_ok lo n p t : uniform lo n p t -> getMsgsSend nElFas lo n elFaEl elPa elTg = Ok (sends lo n).
Proof.
  intros U0. unfold getMsgsSend. rewrite (getPaTgPairs_ok lo n p t U0). cbn [bind]. destruct U0 as (Hn & Hl & U). rdn 0. fold (at_ elPa lo).
  destruct (U lo ltac:(lia)) as (-> & _). unfold sends. set (pairs := pairsOf (cr lo n)).
  match goal with |- for_ _ _ ?o ?s = _ => set (outer := o); replace s with (map (msgOf []) pairs) by (apply map_ext; intros []; reflexivity) end.
  apply (faces_loop (fun l => map (msgOf l) pairs) outer (fun el fa send => ad <- rd elFaEl (el * nElFas + fa) ;;
      match ad with
      | None => Ok send
      | Some ad => paAd <- rd elPa ad ;; tgAd <- rd elTg ad ;; if paAd =? p then Ok send else insertMsg nElFas elFaEl send el fa paAd tgAd
      end)); [reflexivity|].
  intros el fa l Hel Hfa _. destruct M as (ML & MR & _). destruct (rd_adj nElFas nEls elFaEl el fa ML ltac:(lia) Hfa) as (o & -> & Eo). cbn [bind].
  destruct (U el Hel) as (Ep & _). unfold faceEnt. rewrite Eo. destruct o as [ad|]; [|now rewrite app_nil_r].
  assert (ad < nEls) by (apply (ad_lt el fa); auto; lia). rdn 0. rdn 0. fold (at_ elPa ad) (at_ elTg ad). rewrite Ep. destruct (Nat.eqb_spec (pa ad) p) as [Q|Q]; [now rewrite app_nil_r|].
  apply insertMsg_ok; auto; [apply sorted_NoDup, sorted_pairsOf| |lia]. apply In_pairsOf. exists (el, fa, ad). split; auto. apply In_cr. rewrite Ep. auto.
Qed.

(** ** Time regions *)
(** region: group, first element, number of elements *)
Definition region := (nat * nat * nat)%type.
Fixpoint tiles (lo : nat) (regs : list region) (hi : nat) : Prop :=
  match regs with
  | [] => lo = hi
  | (t, f, n) :: regs => f = lo /\ 0 < n /\ (forall el, f <= el < f + n -> tg el = t) /\ tiles (f + n) regs hi
  end.
Notation rT := (fun r : region => fst (fst r)).
Notation rF := (fun r : region => snd (fst r)).
Notation rN := (fun r : region => snd r).

Lemma tiles_app a b lo hi : tiles lo (a ++ b) hi <-> exists mid, tiles lo a mid /\ tiles mid b hi.
Proof.
  revert lo. induction a as [|((t & f) & n) a IH]; intros lo; cbn; [split; [intros H; exists lo; auto|intros (m & -> & H); auto]|].
  rewrite IH. split; [intros (A & B & C & m & D & E); exists m; auto|intros (m & (A & B & C & D) & E); eauto 10].
Qed.
Lemma tiles_le regs : forall lo hi, tiles lo regs hi -> lo <= hi.
Proof. induction regs as [|((t & f) & n) regs IH]; cbn; intros lo hi H; [lia|]. destruct H as (-> & H & _ & H'). apply IH in H'. lia. Qed.

Lemma getTgs_ok lo n : lo + n <= nEls ->
  exists regs, getTgs elTg lo n = Ok (map rT regs, map rF regs, map rN regs) /\ tiles lo regs (lo + n) /\
    ((forall a b, lo <= a -> a <= b -> b < lo + n -> tg a <= tg b) -> StronglySorted lt (map rT regs)).
Proof.
  intros H. unfold getTgs. destruct (Nat.eqb_spec n 0) as [->|Hn].
  - exists []. cbn. repeat split; auto. intros; constructor.
  - loop (fun k (s : option nat * (list nat * list nat * list nat)) => exists regs, snd s = (map rT regs, map rF regs, map rN regs) /\ tiles lo regs k /\
      fst s = match rev regs with [] => None | r :: _ => Some (rT r) end /\
      ((forall a b, lo <= a -> a <= b -> b < lo + n -> tg a <= tg b) -> StronglySorted lt (map rT regs) /\ forall r, In r regs -> exists e, lo <= e < k /\ tg e = rT r)) as (o & r) E I.
    + lia.
    + exists []. cbn. repeat split; auto; [constructor|intros r []].
    + intros k (o & r) Hk (regs & E1 & E2 & E3 & E4). cbn [fst snd] in *. subst r o. rdn 0. fold (at_ elTg k).
      destruct regs as [|r0 rg] using rev_ind; [|clear IHrg].
      * cbn [rev]. eexists. split; [reflexivity|]. cbn [fst snd]. exists [(tg k, k, 1)]. cbn in *. subst k. split; auto. split; [|split; auto].
        -- repeat split; auto; try lia. intros el Hel. f_equal. lia.
        -- intros _. split; [repeat constructor|]. intros r [<-|[]]. exists lo. cbn. lia.
      * rewrite rev_app_distr. cbn [rev app]. destruct r0 as ((t & f) & m). cbn [fst snd].
        apply tiles_app in E2 as (mid & E2 & E2'). cbn in E2'. destruct E2' as (-> & Hm & Ht & <-). pose proof (tiles_le _ _ _ E2).
        destruct (Nat.eqb_spec (tg (mid + m)) t) as [Q|Q].
        -- rewrite !map_app. cbn [map fst snd]. rewrite incLast_snoc. cbn [bind]. eexists. split; [reflexivity|]. cbn [fst snd]. exists (rg ++ [(t, mid, m + 1)]).
           rewrite !map_app, rev_app_distr. cbn [map fst snd rev app]. split; auto. split; [|split; auto].
           ++ apply tiles_app. exists mid. split; auto. cbn. repeat split; auto; try lia. intros el Hel. destruct (Nat.eq_dec el (mid + m)) as [->|]; auto. apply Ht. lia.
           ++ intros SO. destruct (E4 SO) as (S1 & S2). rewrite map_app in S1. split; auto. intros r Hr. apply in_app_iff in Hr as [Hr|[<-|[]]].
              ** destruct (S2 r) as (e & He & Qe); [apply in_app_iff; auto|]. exists e. split; [lia|auto].
              ** exists mid. split; [lia|]. cbn. apply Ht. lia.
        -- eexists. split; [reflexivity|]. cbn [fst snd]. exists ((rg ++ [(t, mid, m)]) ++ [(tg (mid + m), mid + m, 1)]).
           rewrite !(map_app _ (rg ++ [(t, mid, m)])), rev_app_distr. cbn [map fst snd rev app]. split; auto. split; [|split; auto].
           ++ apply tiles_app. exists (mid + m). split; [apply tiles_app; exists mid; cbn; auto|]. cbn. repeat split; auto; try lia. intros el Hel. f_equal. lia.
           ++ intros SO. destruct (E4 SO) as (S1 & S2). split.
              ** assert (G : forall l x, StronglySorted lt l -> (forall y, In y l -> y < x) -> StronglySorted lt (l ++ [x])).
                 { induction l as [|a l IH]; cbn; intros x S A; [repeat constructor|]. inversion S; subst. constructor; [apply IH; auto|]. apply Forall_app. split; auto; auto. }
                 apply G; auto. intros y Hy. apply in_map_iff in Hy as (r & <- & Hr).
                 destruct (S2 r Hr) as (e & He & <-). assert (tg e <= tg (mid + m)) by (apply SO; lia).
                 assert (X : tg e <= t).
                 { assert (X1 : tg e <= tg (mid + m - 1)) by (apply SO; lia). rewrite (Ht (mid + m - 1)) in X1 by lia. auto. }
                 assert (tg (mid + m - 1) <= tg (mid + m)) by (apply SO; lia). rewrite (Ht (mid + m - 1)) in * by lia. lia.
              ** intros r Hr. apply in_app_iff in Hr as [Hr|[<-|[]]]; [destruct (S2 r Hr) as (e & He & Qe); exists e; split; [lia|auto]|].
                 exists (mid + m). cbn. split; [lia|auto].
    + destruct I as (regs & E1 & E2 & E3 & E4). cbn [fst snd] in *. subst r. exists regs. split; auto. split; auto. intros SO. now apply E4.
Qed.

Lemma tiles_in regs : forall lo hi t f n, tiles lo regs hi -> In (t, f, n) regs -> lo <= f /\ 0 < n /\ f + n <= hi /\ forall el, f <= el < f + n -> tg el = t.
Proof.
  induction regs as [|((t0 & f0) & n0) regs IH]; intros lo hi t f n H I; [destruct I|]. cbn in H. destruct H as (-> & Hn & Ht & H). pose proof (tiles_le _ _ _ H).
  destruct I as [I|I]; [inversion I; subst; repeat split; auto; lia|]. destruct (IH _ _ _ _ _ H I) as (A & B & C & D). repeat split; auto; lia.
Qed.
Lemma tiles_cover regs : forall lo hi el, tiles lo regs hi -> lo <= el < hi -> exists t f n, In (t, f, n) regs /\ f <= el < f + n.
Proof.
  induction regs as [|((t0 & f0) & n0) regs IH]; intros lo hi el H Hel; cbn in H; [lia|]. destruct H as (-> & Hn & Ht & H).
  destruct (lt_dec el (lo + n0)) as [L|L]; [exists t0, lo, n0; cbn; split; [auto|lia]|]. destruct (IH _ _ el H ltac:(lia)) as (t & f & n & I & Q). exists t, f, n. cbn. auto.
Qed.

(** ** Communicating elements of the partitions *)
Hypothesis O : ordered nElFas nEls elFaEl elPa (fun el => tg el).
Notation crs el := (crosses nElFas elFaEl elPa el).

(** Partitions with communicating elements form an interval. *)
Definition noGap : Prop := forall p a b, a < nEls -> b < nEls -> crs a -> crs b -> pa a < p -> p < pa b -> exists e, e < nEls /\ pa e = p /\ crs e.

Lemma mono a b : a <= b -> b < nEls -> pa a <= pa b.
Proof. intros H Hb. destruct (C27_contiguous nElFas nEls elFaEl elPa _ M LP O) as (_ & _ & _ & X). destruct (Nat.eq_dec a b) as [->|]; auto. apply X; lia. Qed.

Definition commReg (nPas k : nat) (first size : list nat) : Prop := length first = nPas /\ length size = nPas /\
  forall p, p < nPas -> forall e, (e < k /\ pa e = p /\ crs e) <-> at_ first p <= e < at_ first p + at_ size p.

Lemma getPaElComm_ok nPas : noGap -> (forall el, el < nEls -> pa el < nPas) ->
  exists first size, getPaElComm nElFas nEls elFaEl elPa (repeat 0 nPas) (repeat 0 nPas) = Ok (first, size) /\ commReg nPas nEls first size.
Proof.
  intros G HP. destruct (C27_contiguous nElFas nEls elFaEl elPa _ M LP O) as (C1 & C2 & _ & _). unfold getPaElComm.
  loop (fun k (s : option nat * list nat * list nat) => let '(reg, first, size) := s in commReg nPas k first size /\
    match reg with
    | None => forall e, e < k -> ~ crs e
    | Some r => r < nPas /\ 0 < at_ size r /\ (exists e, e < k /\ crs e /\ pa e = r) /\ forall e, e < k -> crs e -> pa e <= r
    end) as ((reg & first) & size) E (I1 & _).
  - lia.
  - split; [|intros; lia]. unfold commReg. rewrite !repeat_length. repeat split; auto; try lia; unfold at_ in *; rewrite !nth_repeat in *; lia.
  - intros k ((reg & first) & size) Hk ((L1 & L2 & I) & R). destruct (isComm_ok nElFas nEls elFaEl M elPa k LP ltac:(lia)) as (b & -> & Hb). cbn [bind]. rdn 0. fold (at_ elPa k).
    pose proof (HP k ltac:(lia)) as HPk. destruct b; cbn [andb].
    + assert (Ck : crs k) by now apply Hb. rewrite andb_true_r.
      destruct (match reg with Some r => negb (r =? pa k) | None => true end) eqn:Q.
      * (* new region *)
        assert (LTR : forall r, reg = Some r -> r < pa k).
        { intros r ->. destruct R as (_ & _ & (e & He & Ce & <-) & _). assert (pa e <= pa k) by (apply mono; lia). apply negb_true_iff, Nat.eqb_neq in Q. lia. }
        assert (FRESH : forall e, e < k -> crs e -> pa e <> pa k).
        { intros e He Ce. destruct reg as [r|]; [|exfalso; now apply (R e)]. specialize (LTR r eq_refl). destruct R as (_ & _ & _ & R). specialize (R e He Ce). lia. }
        replace (match reg with Some r => pa k =? r + 1 | None => true end) with true.
        -- cbn [check bind]. wrn. wrn. eexists. split; [reflexivity|]. cbn beta iota. split.
           ++ unfold commReg. rewrite !length_upd. split; auto. split; auto. intros p Hp e. rewrite !at_upd by lia. destruct (Nat.eqb_spec p (pa k)) as [->|Np].
              ** split; [|intros He; assert (e = k) as -> by lia; auto]. intros (He & Pe & Ce). destruct (Nat.eq_dec e k) as [->|]; [lia|]. exfalso. apply (FRESH e); auto. lia.
              ** rewrite <- (I p Hp e). split; intros (He & Pe & Ce); (assert (e <> k) by (intros ->; first [lia | congruence | auto])); repeat split; auto; lia.
           ++ split; [auto|]. split; [rewrite at_upd by lia; rewrite Nat.eqb_refl; lia|]. split; [exists k; auto|]. intros e He Ce. apply mono; lia.
        -- destruct reg as [r|]; auto. symmetry. apply Nat.eqb_eq. specialize (LTR r eq_refl). destruct R as (_ & _ & (e & He & Ce & Pe) & R).
           destruct (Nat.eq_dec (pa k) (r + 1)); auto. exfalso.
           destruct (G (r + 1) e k) as (x & Hx & Px & Cx); auto; try lia.
           assert (x < k). { destruct (le_lt_dec k x); auto. assert (pa k <= pa x) by (apply mono; lia). lia. }
           specialize (R x ltac:(auto) Cx). lia.
      * (* inside the region *)
        destruct reg as [r|]; [|discriminate]. apply negb_false_iff, Nat.eqb_eq in Q. subst r. cbn iota beta. rewrite Nat.eqb_refl. cbn [andb].
        destruct R as (R1 & R2 & (e0 & He0 & Ce0 & Pe0) & R3). rdn 0. fold (at_ size (pa k)). wrn. eexists. split; [reflexivity|]. cbn beta iota.
        assert (END : at_ first (pa k) + at_ size (pa k) = k).
        { assert (UP : at_ first (pa k) + at_ size (pa k) <= k).
          { destruct (proj2 (I (pa k) HPk (at_ first (pa k) + at_ size (pa k) - 1)) ltac:(lia)) as (X & _). lia. }
          assert (LO : at_ first (pa k) <= e0 < at_ first (pa k) + at_ size (pa k)) by (apply (I (pa k) HPk); auto).
          destruct (Nat.eq_dec e0 (k - 1)) as [->|]; [lia|].
          assert (P1 : pa (k - 1) = pa k) by (rewrite <- Pe0; apply (C1 e0 (k - 1) k); lia).
          assert (crs (k - 1)) by (apply (C2 e0); auto; try lia; congruence).
          assert (at_ first (pa k) <= k - 1 < at_ first (pa k) + at_ size (pa k)) by (apply (I (pa k) HPk); repeat split; auto; lia). lia. }
        split.
        -- unfold commReg. rewrite length_upd. split; auto. split; auto. intros p Hp e. rewrite at_upd by lia. destruct (Nat.eqb_spec p (pa k)) as [->|Np].
           ++ destruct (Nat.eq_dec e k) as [->|Ne].
              ** split; [intros _; lia|auto].
              ** specialize (I (pa k) HPk e). split; [intros (He & Pe & Ce)|intros He].
                 --- assert (at_ first (pa k) <= e < at_ first (pa k) + at_ size (pa k)) by (apply I; repeat split; auto; lia). lia.
                 --- destruct (proj2 I ltac:(lia)) as (A & B & C). repeat split; auto.
           ++ rewrite <- (I p Hp e). split; intros (He & Pe & Ce); (assert (e <> k) by (intros ->; first [lia | congruence | auto])); repeat split; auto; lia.
        -- split; auto. split; [rewrite at_upd by lia; rewrite Nat.eqb_refl; lia|]. split; [exists k; auto|]. intros e He Ce. apply mono; lia.
    + rewrite !andb_false_r. assert (NC : ~ crs k) by (rewrite <- Hb; discriminate). eexists. split; [reflexivity|]. cbn beta iota. split.
      * split; auto. split; auto. intros p Hp e. rewrite <- (I p Hp e). split; intros (He & Pe & Ce); (assert (e <> k) by (intros ->; first [lia | congruence | auto])); repeat split; auto; lia.
      * destruct reg as [r|].
        -- destruct R as (R1 & R2 & (e & He & R4) & R3). split; auto. split; auto. split; [exists e; split; [lia|auto]|]. intros x Hx Cx. assert (x <> k) by (intros ->; auto). apply R3; auto. lia.
        -- intros e He Ce. assert (e <> k) by (intros ->; auto). apply (R e); auto. lia.
  - cbn [bind]. exists first, size. auto.
Qed.

(** ** Send structure *)
Definition regTr (r : region) : timeRegion := mkTr (rT r) (sends (rF r) (rN r)) [].

(** regions of a partition *)
Definition regsOf (p : nat) (regs : list region) : Prop :=
  StronglySorted lt (map rT regs) /\
  (forall t f n, In (t, f, n) regs -> uniform f n p t /\ forall el, f <= el < f + n -> crs el) /\
  (forall el, el < nEls -> pa el = p -> crs el -> exists t f n, In (t, f, n) regs /\ f <= el < f + n).

Lemma sendParts_ok nPas first size : commReg nPas nEls first size -> (forall el, el < nEls -> pa el < nPas) ->
  exists rs, sendParts nElFas nPas elFaEl elPa elTg first size = Ok (map (map regTr) rs) /\ length rs = nPas /\
    forall p regs, nth_error rs p = Some regs -> regsOf p regs.
Proof.
  intros (L1 & L2 & I) HP. destruct (C27_contiguous nElFas nEls elFaEl elPa _ M LP O) as (C1 & C2 & C3 & _). unfold sendParts.
  loop (fun k (st : list partition) => exists rs, st = map (map regTr) rs /\ length rs = k /\ forall p regs, nth_error rs p = Some regs -> regsOf p regs) as st E (rs & -> & A & B).
  - lia.
  - exists []. repeat split; auto; destruct p; discriminate.
  - intros k st Hk (rs & -> & A & B). rdn 0. rdn 0. fold (at_ first k) (at_ size k). specialize (I k ltac:(lia)).
    assert (BD : at_ first k + at_ size k <= nEls \/ at_ size k = 0).
    { destruct (at_ size k) as [|n] eqn:S; auto. left. destruct (proj2 (I (at_ first k + at_ size k - 1)) ltac:(lia)) as (X & _). lia. }
    assert (X : exists regs, getTgs elTg (at_ first k) (at_ size k) = Ok (map rT regs, map rF regs, map rN regs) /\ regsOf k regs).
    { destruct BD as [BD|Z].
      - destruct (getTgs_ok (at_ first k) (at_ size k) BD) as (regs & E & T & S). exists regs. split; auto. split; [|split].
        + apply S. intros a b Ha Hab Hb. destruct (proj2 (I a) ltac:(lia)) as (A1 & A2 & A3). destruct (proj2 (I b) ltac:(lia)) as (B1 & B2 & B3).
          destruct (Nat.eq_dec a b) as [->|]; auto. apply C3; auto; try lia; try congruence. tauto.
        + intros t f n Hr. destruct (tiles_in _ _ _ _ _ _ T Hr) as (T1 & T2 & T3 & T4). split; [split; auto; split; [lia|]|].
          * intros el Hel. split; auto. now apply (proj2 (I el) ltac:(lia)).
          * intros el Hel. now apply (proj2 (I el) ltac:(lia)).
        + intros el He Pe Ce. apply (tiles_cover regs _ _ el T). now apply I.
      - exists []. rewrite Z. split; [reflexivity|]. split; [constructor|]. split; [intros t f n []|]. intros el He Pe Ce. assert (at_ first k <= el < at_ first k + at_ size k) by (apply I; auto). lia. }
    destruct X as (regs & -> & R). cbn [bind].
    loop (fun i (p : partition) => p = map regTr (firstn i regs)) as p E ->.
    + lia.
    + reflexivity.
    + intros i p Hi ->. rewrite map_length in Hi. destruct (nth_error regs i) as [r|] eqn:Er; [|apply nth_error_None in Er; lia].
      rewrite (rd_some (map rT regs) i (rT r)) by (rewrite nth_error_map, Er; reflexivity). cbn [bind].
      rewrite (rd_some (map rF regs) i (rF r)) by (rewrite nth_error_map, Er; reflexivity). cbn [bind].
      rewrite (rd_some (map rN regs) i (rN r)) by (rewrite nth_error_map, Er; reflexivity). cbn [bind].
      destruct r as ((t & f) & n). cbn [fst snd]. destruct R as (_ & R & _). destruct (R t f n (nth_error_In _ _ Er)) as (U & _).
      rewrite (getMsgsSend_ok f n k t U). cbn [bind]. eexists. split; [reflexivity|]. rewrite (firstn_S_snoc _ _ _ Er), map_app. reflexivity.
    + rewrite map_length, firstn_all. eexists. split; [reflexivity|]. exists (rs ++ [regs]). rewrite map_app, app_length. cbn [map length]. split; auto. split; [lia|].
      intros p rg Hp. destruct (lt_dec p (length rs)); [rewrite nth_error_app1 in Hp by auto; auto|]. rewrite nth_error_app2 in Hp by lia.
      destruct (p - length rs) as [|d] eqn:D; [|destruct d; discriminate]. inversion Hp; subst. replace p with (length rs) by lia. auto.
  - exists rs. auto.
Qed.

(** ** Receive structure *)

Definition mirrorOf (m m' : message) : message := mkMessage (msPa m) (msTg m) (msElAd m') (msFaAd m') (msEl m') (msFa m').

Lemma mirrorIn_ok l pairs p t m : NoDup pairs -> In (p, t) pairs -> length (msEl m) = length (msEl (msgOf l (p, t))) -> length (msFa m) = length (msFa (msgOf l (p, t))) ->
  mirrorIn (map (msgOf l) pairs) p t m = Ok (mirrorOf m (msgOf l (p, t))).
Proof.
  intros ND I H1 H2. induction ND as [|q pairs N D IH]; [destruct I|]. cbn [map mirrorIn]. destruct q as (q & u). cbn [msgOf msPa msTg fst snd].
  destruct (Nat.eqb_spec u t) as [Qt|Qt]; [destruct (Nat.eqb_spec q p) as [Qp|Qp]|]; cbn [andb].
  - subst q u. cbn [msgOf msEl msFa] in *. rewrite <- H1, <- H2, !Nat.eqb_refl. reflexivity.
  - assert (I' : In (p, t) pairs) by (destruct I as [I|I]; [congruence|auto]).
    replace (negb (length (map (msgOf l) pairs) =? 0)) with true by (rewrite map_length; destruct pairs; [destruct I'|reflexivity]). cbn [check bind]. auto.
  - assert (I' : In (p, t) pairs) by (destruct I as [I|I]; [congruence|auto]).
    replace (negb (length (map (msgOf l) pairs) =? 0)) with true by (rewrite map_length; destruct pairs; [destruct I'|reflexivity]). cbn [check bind]. auto.
Qed.

Lemma mirrorTr_ok regs p t m f n : StronglySorted lt (map rT regs) -> In (msTg m, f, n) regs ->
  mirrorTr (map regTr regs) p t m = mirrorIn (sends f n) p t m.
Proof.
  induction regs as [|r regs IH]; intros S I; [destruct I|]. cbn [map mirrorTr]. inversion S as [|? ? S' F]; subst. cbn [regTr trTg trSend]. destruct I as [->|I].
  - cbn [fst snd]. now rewrite Nat.eqb_refl.
  - rewrite Forall_forall in F. specialize (F (msTg m)). destruct (Nat.eqb_spec (rT r) (msTg m)) as [Q|Q]; [|auto].
    exfalso. assert (rT r < msTg m); [|cbn in *; lia]. apply F. apply in_map_iff. exists (msTg m, f, n). auto.
Qed.

Hypothesis ONE : forall el f f' ad, el < nEls -> f < nElFas -> f' < nElFas -> at3 el f = Some (Some ad) -> at3 el f' = Some (Some ad) -> f = f'.

(** faces of a channel and of the mirrored channel *)
Lemma swap_incl f n p t f' n' p' t' : uniform f n p t -> uniform f' n' p' t' ->
  (forall el, el < nEls -> pa el = p' -> tg el = t' -> crs el -> f' <= el < f' + n') ->
  forall el fa ad, In (el, fa, ad) (chTo (p', t') (cr f n)) ->
    exists fa', In (ad, fa', el) (chTo (p, t) (cr f' n')) /\ lastFa nElFas el ad = Some fa' /\ fa' < nElFas /\ at3 ad fa' = Some (Some el).
Proof.
  intros (U1 & U2 & U3) (V1 & V2 & V3) CV el fa ad H. apply In_chTo in H as (H & Pa & Tg). apply In_cr in H as (Hel & Hfa & E & N). cbn [fst snd] in *.
  destruct (faAd_ok el fa ad ltac:(lia) Hfa E) as (fa' & F & Hf' & E'). exists fa'. split; [|auto]. apply In_chTo. cbn [fst snd].
  destruct (U3 el Hel) as (P & T). split; auto. apply In_cr. assert (ad < nEls) by (apply (ad_lt el fa); auto; lia). repeat split; auto; try apply CV; auto; exists el; (split; [exists fa'; auto|auto]).
Qed.
Lemma NoDup_chTo p lo n : NoDup (chTo p (cr lo n)).
Proof. apply NoDup_filter, NoDup_cr. Qed.

Lemma swap_length f n p t f' n' p' t' : uniform f n p t -> uniform f' n' p' t' ->
  (forall el, el < nEls -> pa el = p' -> tg el = t' -> crs el -> f' <= el < f' + n') ->
  length (chTo (p', t') (cr f n)) <= length (chTo (p, t) (cr f' n')).
Proof.
  intros U V CV. pose proof (swap_incl f n p t f' n' p' t' U V CV) as SW. set (sw := fun x : ent => (snd x, faAdOf x, fst (fst x))).
  rewrite <- (map_length sw). apply NoDup_incl_length.
  - assert (INJ : forall x y, In x (chTo (p', t') (cr f n)) -> In y (chTo (p', t') (cr f n)) -> sw x = sw y -> x = y).
    { intros ((el & fa) & ad) ((el' & fa') & ad') Hx Hy E. unfold sw in E. cbn [fst snd] in E. inversion E; subst. f_equal. f_equal.
      apply In_chTo in Hx as (Hx & _). apply In_chTo in Hy as (Hy & _). apply In_cr in Hx. apply In_cr in Hy. destruct U as (_ & U & _). apply (ONE el' fa fa' ad'); tauto || lia. }
    pose proof (NoDup_chTo (p', t') f n) as ND. revert INJ ND. generalize (chTo (p', t') (cr f n)). induction l as [|x l IH]; cbn; intros INJ ND; [constructor|].
    inversion ND; subst. constructor; [|apply IH; auto]. intros Q. apply in_map_iff in Q as (y & E & Hy). assert (x = y) by (apply INJ; auto). congruence.
  - intros y Hy. apply in_map_iff in Hy as (((el & fa) & ad) & <- & Hx). destruct (SW el fa ad Hx) as (fa' & H & F & _). unfold sw, faAdOf. cbn [fst snd]. now rewrite F.
Qed.

Lemma mirror_ok rs p regs t f n q : (forall p regs, nth_error rs p = Some regs -> regsOf p regs) -> (forall el, el < nEls -> pa el < length rs) ->
  nth_error rs p = Some regs -> In (t, f, n) regs -> In q (pairsOf (cr f n)) ->
  exists r regs' f' n', (trs <- rd (map (map regTr) rs) (msPa (msgOf (cr f n) q)) ;; mirrorTr trs p t (msgOf (cr f n) q)) = Ok r /\
    nth_error rs (fst q) = Some regs' /\ In (snd q, f', n') regs' /\ In (p, t) (pairsOf (cr f' n')) /\
    r = mirrorOf (msgOf (cr f n) q) (msgOf (cr f' n') (p, t)) /\
    length (chTo q (cr f n)) = length (chTo (p, t) (cr f' n')).
Proof.
  intros HR HP Hp Hr Hq. destruct q as (p' & t'). cbn [fst snd msgOf msPa].
  destruct (HR p regs Hp) as (_ & R2 & R3). destruct (R2 t f n Hr) as (U & UC).
  apply In_pairsOf in Hq as (((el & fa) & ad) & Hx & Q). unfold pairOf in Q. cbn [snd] in Q. inversion Q as [[Q1 Q2]]. apply In_cr in Hx as (Hel & Hfa & E & N).
  assert (Hel' : el < nEls) by (destruct U as (_ & U & _); lia). assert (Had : ad < nEls) by (apply (ad_lt el fa); auto).
  destruct (faAd_ok el fa ad Hel' Hfa E) as (fa' & F & Hf' & E').
  assert (Cad : crs ad) by (exists el; split; [exists fa'; auto|auto]).
  destruct (nth_error rs (pa ad)) as [regs'|] eqn:Er; [|apply nth_error_None in Er; specialize (HP ad Had); lia].
  destruct (HR _ _ Er) as (S' & R2' & R3'). destruct (R3' ad Had eq_refl Cad) as (t0 & f' & n' & Hr' & Had').
  destruct (R2' t0 f' n' Hr') as (U' & UC'). assert (t0 = tg ad) as -> by (destruct U' as (_ & _ & X); symmetry; apply (X ad Had')).
  (* regions contain all communicating elements of a group *)
  assert (COV : forall p regs t f n, nth_error rs p = Some regs -> In (t, f, n) regs -> forall e, e < nEls -> pa e = p -> tg e = t -> crs e -> f <= e < f + n).
  { intros p0 regs0 t0 f0 n0 H0 I0 e He Pe Te Ce. destruct (HR _ _ H0) as (S0 & R20 & R30). destruct (R30 e He Pe Ce) as (t1 & f1 & n1 & I1 & He1).
    destruct (R20 t1 f1 n1 I1) as ((_ & _ & X) & _). assert (t1 = t0) as -> by (rewrite <- Te; symmetry; apply X; auto).
    assert (UQ : forall a b, In a regs0 -> In b regs0 -> rT a = rT b -> a = b).
    { clear - S0. revert S0. induction regs0 as [|x l IH]; cbn; intros S a b A B Q; [destruct A|]. inversion S as [|? ? S' F]; subst. rewrite Forall_forall in F.
      destruct A as [->|A], B as [->|B]; auto; exfalso; [assert (rT a < rT b) by (apply F, in_map_iff; eauto)|assert (rT b < rT a) by (apply F, in_map_iff; eauto)]; cbn in *; lia. }
    assert (E0 : (t0, f1, n1) = (t0, f0, n0)) by (apply UQ; auto). inversion E0; subst. auto. }
  assert (LEN : length (chTo (pa ad, tg ad) (cr f n)) = length (chTo (p, t) (cr f' n'))).
  { apply Nat.le_antisymm; [apply (swap_length f n p t f' n' (pa ad) (tg ad))|apply (swap_length f' n' (pa ad) (tg ad) f n p t)]; auto; eapply COV; eauto. }
  assert (PT : pa el = p /\ tg el = t) by (destruct U as (_ & _ & X); apply X; auto).
  assert (IP : In (p, t) (pairsOf (cr f' n'))).
  { apply In_pairsOf. exists (ad, fa', el). split; [apply In_cr; auto|]. unfold pairOf. cbn. destruct PT as (-> & ->). reflexivity. }
  subst p' t'. exists (mirrorOf (msgOf (cr f n) (pa ad, tg ad)) (msgOf (cr f' n') (p, t))), regs', f', n'. split; [|auto 10].
  rewrite (rd_some _ _ (map regTr regs')) by (rewrite nth_error_map, Er; reflexivity). cbn [bind].
  rewrite (mirrorTr_ok regs' p t _ f' n'); auto. unfold sends. apply mirrorIn_ok; auto; [apply sorted_NoDup, sorted_pairsOf| |]; cbn [msgOf msEl msFa]; rewrite !map_length; auto.
Qed.

(** time region of the final structure *)
Definition trOk (rs : list (list region)) (p : nat) (r : region) (tr : timeRegion) : Prop :=
  trTg tr = rT r /\ trSend tr = sends (rF r) (rN r) /\
  Forall2 (fun q re => exists regs' f' n', nth_error rs (fst q) = Some regs' /\ In (snd q, f', n') regs' /\ In (p, rT r) (pairsOf (cr f' n')) /\
      re = mirrorOf (msgOf (cr (rF r) (rN r)) q) (msgOf (cr f' n') (p, rT r)) /\
      length (chTo q (cr (rF r) (rN r))) = length (chTo (p, rT r) (cr f' n')))
    (pairsOf (cr (rF r) (rN r))) (trRecv tr).


Lemma getStruct_ok : noGap -> 0 < nEls ->
  exists rs st, getStruct nElFas nEls elFaEl elPa elTg = Ok st /\ length rs = S (pa (nEls - 1)) /\ length st = length rs /\
    (forall el, el < nEls -> pa el < length rs) /\
    forall p regs, nth_error rs p = Some regs -> regsOf p regs /\ exists trs, nth_error st p = Some trs /\ Forall2 (trOk rs p) regs trs.
Proof.
  intros G HN. unfold getStruct. replace (nEls =? 0) with false by lia. cbn [bind]. rdn 0. fold (at_ elPa (nEls - 1)).
  assert (HP : forall el, el < nEls -> pa el < pa (nEls - 1) + 1) by (intros el He; assert (pa el <= pa (nEls - 1)) by (apply mono; lia); lia).
  destruct (getPaElComm_ok (pa (nEls - 1) + 1) G HP) as (first & size & -> & CR). cbn [bind].
  destruct (sendParts_ok _ first size CR HP) as (rs & -> & L & HR). cbn [bind].
  unfold recvParts.
  destruct (mapMi_ok (fun pa0 p => mapM (fun tr => recv <- mapM (fun m => trs <- rd (map (map regTr) rs) (msPa m) ;; mirrorTr trs pa0 (trTg tr) m) (trSend tr) ;; Ok (mkTr (trTg tr) (trSend tr) recv)) p)
    (fun p trs trs' => forall regs, nth_error rs p = Some regs -> Forall2 (trOk rs p) regs trs') (map (map regTr) rs) 0) as (st & E & LS & HS).
  - intros p trs Ht. cbn [Nat.add]. rewrite nth_error_map in Ht. destruct (nth_error rs p) as [regs|] eqn:Er; [|discriminate]. cbn in Ht. inversion Ht; subst trs. clear Ht.
    destruct (mapM_ok (fun tr => recv <- mapM (fun m => trs <- rd (map (map regTr) rs) (msPa m) ;; mirrorTr trs p (trTg tr) m) (trSend tr) ;; Ok (mkTr (trTg tr) (trSend tr) recv))
      (fun tr tr' => forall r, In r regs -> tr = regTr r -> trOk rs p r tr') (map regTr regs)) as (trs' & E & H2).
    + intros tr Htr. apply in_map_iff in Htr as (r & <- & Hr). destruct r as ((t & f) & n). cbn [regTr trTg trSend fst snd].
      destruct (mapM_ok (fun m => trs <- rd (map (map regTr) rs) (msPa m) ;; mirrorTr trs p t m)
        (fun m re => forall q, In q (pairsOf (cr f n)) -> m = msgOf (cr f n) q -> exists regs' f' n', nth_error rs (fst q) = Some regs' /\ In (snd q, f', n') regs' /\ In (p, t) (pairsOf (cr f' n')) /\
           re = mirrorOf (msgOf (cr f n) q) (msgOf (cr f' n') (p, t)) /\ length (chTo q (cr f n)) = length (chTo (p, t) (cr f' n'))) (sends f n)) as (recv & E & H2).
      * intros m Hm. unfold sends in Hm. apply in_map_iff in Hm as (q & <- & Hq).
        destruct (mirror_ok rs p regs t f n q HR ltac:(rewrite L; exact HP) Er Hr Hq) as (re & regs' & f' & n' & E & X). exists re. split; auto.
        intros q' Hq' Eq. assert (q' = q) as -> by (destruct q, q'; inversion Eq; auto). eauto.
      * rewrite E. cbn [bind]. eexists. split; [reflexivity|]. intros ((t1 & f1) & n1) Hr1 Eq. assert (X : (t, f, n) = (t1, f1, n1)).
        { (* regions of a partition with equal groups are equal *)
          destruct (HR _ _ Er) as (S & _ & _). assert (t = t1) as <- by (unfold regTr in Eq; inversion Eq; auto). clear - S Hr Hr1. revert S Hr Hr1. induction regs as [|x l IH]; cbn; intros S A B; [destruct A|].
          inversion S as [|? ? S' F]; subst. rewrite Forall_forall in F. destruct A as [->|A], B as [B|B]; auto; exfalso;
            [assert (t < t) by (apply (F t), in_map_iff; exists (t, f1, n1); auto)|subst x; assert (t < t) by (apply (F t), in_map_iff; exists (t, f, n); auto)]; lia. }
        inversion X; subst t1 f1 n1. split; [reflexivity|]. split; [reflexivity|]. cbn [trRecv fst snd].
        unfold sends in H2. apply Forall2_map_l in H2. clear - H2.
        assert (GG : forall l (R1 : nat * nat -> message -> Prop) (R2 : nat * nat -> message -> Prop) l', Forall2 R1 l l' -> (forall q re, In q l -> R1 q re -> R2 q re) -> Forall2 R2 l l').
        { intros l R1 R2 l'. induction 1; intros HH; constructor; [apply HH; cbn; auto|]. apply IHForall2. intros; apply HH; cbn; auto. }
        eapply GG; [exact H2|]. cbn beta. intros q re Hq X. apply X; auto.
    + exists trs'. split; auto. intros regs0 Er0. assert (regs0 = regs) as -> by congruence. apply Forall2_map_l in H2.
      assert (GG : forall l (R1 R2 : region -> timeRegion -> Prop) l', Forall2 R1 l l' -> (forall q re, In q l -> R1 q re -> R2 q re) -> Forall2 R2 l l').
      { intros l R1 R2 l'. induction 1; intros HH; constructor; [apply HH; cbn; auto|]. apply IHForall2. intros; apply HH; cbn; auto. }
      eapply GG; [exact H2|]. cbn beta. intros r tr Hr X. apply X; auto.
  - exists rs, st. split; [exact E|]. split; [lia|]. rewrite map_length in LS. split; auto. split; [rewrite L; exact HP|].
    intros p regs Hp. split; [auto|]. destruct (HS p (map regTr regs)) as (trs & E1 & E2); [rewrite nth_error_map, Hp; reflexivity|]. exists trs. split; auto.
Qed.
End Comm.
