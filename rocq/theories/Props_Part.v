(** Properties of the partitions of the preprocessor: C27, C30, C31. *)
From Coq Require Import Permutation Sorted.
From Verif Require Import Util Groups Props_Groups Partition Comm.
Open Scope nat_scope.

(** * Specification *)

(** Element [el] has a face to an element of another partition. *)
Definition crosses (nElFas : nat) (elFaEl : list (option nat)) (elPa : list nat) (el : nat) : Prop :=
  exists ad, adj nElFas elFaEl el ad /\ at_ elPa ad <> at_ elPa el.

(** There are [n] elements with property [P]. *)
Definition counts (P : nat -> Prop) (n : nat) : Prop := exists l, NoDup l /\ (forall x, In x l <-> P x) /\ length l = n.

(** Time group of an element; a null pointer means a single group. *)
Definition tgOf (elTg : option (list nat)) (el : nat) : nat := match elTg with None => 0 | Some l => at_ l el end.

(** The desired order: by partition, inner before send elements, time group. *)
Definition precedes (nElFas : nat) (elFaEl : list (option nat)) (elPa : list nat) (tg : nat -> nat) (a b : nat) : Prop :=
  at_ elPa a < at_ elPa b \/
  at_ elPa a = at_ elPa b /\
    (~ crosses nElFas elFaEl elPa a /\ crosses nElFas elFaEl elPa b \/
     (crosses nElFas elFaEl elPa a <-> crosses nElFas elFaEl elPa b) /\ tg a < tg b).

(** The elements of a mesh are in the desired order. *)
Definition ordered (nElFas nEls : nat) (elFaEl : list (option nat)) (elPa : list nat) (tg : nat -> nat) : Prop :=
  forall a b, a < b -> b < nEls -> ~ precedes nElFas elFaEl elPa tg b a.

(** Element [i] of the mesh with the adjacency [elFaEl'] is element [p i] of the mesh with the adjacency [elFaEl]. *)
Definition renumbered (nElFas nEls : nat) (elFaEl elFaEl' : list (option nat)) (p : list nat) : Prop :=
  Permutation p (seq 0 nEls) /\
  forall i j, i < nEls -> j < nEls -> adj nElFas elFaEl' i j <-> adj nElFas elFaEl (at_ p i) (at_ p j).

(** * Proofs *)

Lemma counts_filter (P : nat -> Prop) (f : nat -> bool) n : (forall x, P x <-> x < n /\ f x = true) -> counts P (length (filter f (seq 0 n))).
Proof.
  intros H. exists (filter f (seq 0 n)). split; [apply NoDup_filter, seq_NoDup|]. split; [|reflexivity]. intros x. rewrite H, filter_In, in_seq. intuition lia.
Qed.
Lemma counts_fun P n n' : counts P n -> counts P n' -> n = n'.
Proof.
  intros (l & D & I & <-) (l' & D' & I' & <-). apply Nat.le_antisymm; apply NoDup_incl_length; auto; intros x Hx; [apply I', I|apply I, I']; auto.
Qed.

Lemma rd_adj nElFas nEls (elFaEl : list (option nat)) el fa : length elFaEl = nEls * nElFas -> el < nEls -> fa < nElFas ->
  exists o, rd elFaEl (el * nElFas + fa) = Ok o /\ nth_error elFaEl (el * nElFas + fa) = Some o.
Proof.
  intros L H F. destruct (nth_error elFaEl (el * nElFas + fa)) as [o|] eqn:E; [|apply nth_error_None in E; nia].
  exists o. split; auto. now apply rd_some.
Qed.

Section Mesh.
Variables (nElFas nEls : nat) (elFaEl : list (option nat)).
Hypothesis M : mesh_ok nElFas nEls elFaEl.

Lemma isComm_ok elPa el : length elPa = nEls -> el < nEls ->
  exists b, isComm nElFas elFaEl elPa el = Ok b /\ (b = true <-> crosses nElFas elFaEl elPa el).
Proof.
  destruct M as (ML & MR & MS). intros LP He. unfold isComm. rdn 0. fold (at_ elPa el).
  loop (fun fa (b : bool) => b = true <-> exists f ad, f < fa /\ nth_error elFaEl (el * nElFas + f) = Some (Some ad) /\ at_ elPa ad <> at_ elPa el) as b E H.
  - lia.
  - split; [discriminate|]. intros (f & _ & F & _). lia.
  - intros fa b Hfa IH. destruct (rd_adj nElFas nEls elFaEl el fa ML He ltac:(lia)) as (o & -> & E). cbn [bind].
    destruct o as [ad|].
    + assert (ad < nEls) by (apply (MR el); auto; exists fa; split; [lia|auto]). rdn 0. fold (at_ elPa ad). eexists. split; [reflexivity|].
      destruct (Nat.eqb_spec (at_ elPa el) (at_ elPa ad)) as [Q|Q].
      * rewrite IH. split; intros (f & a & F & G & K); exists f, a; [repeat split; auto; lia|].
        destruct (Nat.eq_dec f fa) as [->|]; [rewrite E in G; inversion G; congruence|]. repeat split; auto; lia.
      * split; auto. intros _. exists fa, ad. repeat split; auto.
    + eexists. split; [reflexivity|]. rewrite IH. split; intros (f & a & F & G & K); exists f, a; [repeat split; auto; lia|].
      destruct (Nat.eq_dec f fa) as [->|]; [rewrite E in G; inversion G|]. repeat split; auto; lia.
  - exists b. split; auto. rewrite H. split; [intros (f & a & F & G & K); exists a; split; auto; exists f; auto|intros (a & (f & F & G) & K); exists f, a; auto].
Qed.

End Mesh.

(** maximum of an array *)
Lemma max_ok (l : list nat) n : n <= length l ->
  exists m, for_ 0 n (fun el m => x <- rd l el ;; Ok (Nat.max m x)) 0 = Ok m /\ (forall el, el < n -> at_ l el <= m) /\
    (0 < n -> exists el, el < n /\ at_ l el = m) /\ (n = 0 -> m = 0).
Proof.
  intros L. loop (fun k m => (forall el, el < k -> at_ l el <= m) /\ (0 < k -> exists el, el < k /\ at_ l el = m) /\ (k = 0 -> m = 0)) as m E H.
  - lia.
  - repeat split; lia.
  - intros k m Hk (H1 & H2 & H3). rdn 0. fold (at_ l k). eexists. split; [reflexivity|]. split; [|split; [|lia]].
    + intros el He. destruct (Nat.eq_dec el k) as [->|]; [lia|]. specialize (H1 el). lia.
    + intros _. destruct (le_lt_dec m (at_ l k)); [exists k; split; [lia|]; lia|]. destruct k; [rewrite H3 in *; auto; lia|].
      destruct H2 as (el & He & Q); [lia|]. exists el. split; lia.
  - exists m. intuition.
Qed.

(** * C27 *)

Section Pr.
Variables (nElFas nEls : nat) (elFaEl : list (option nat)) (elPa : list nat) (elTg : option (list nat)).
Hypothesis M : mesh_ok nElFas nEls elFaEl.
Hypothesis LP : length elPa = nEls.
Hypothesis LT : match elTg with None => True | Some l => length l = nEls end.

Lemma getElPr_ok elPr : length elPr = nEls -> exists T out, getElPr nElFas nEls elFaEl elPa elTg elPr = Ok out /\ length out = nEls /\
  (forall el, el < nEls -> tgOf elTg el < T) /\
  (forall el, el < nEls -> exists b : bool, (b = true <-> crosses nElFas elFaEl elPa el) /\
     at_ out el = at_ elPa el * 2 * T + (if b then T else 0) + tgOf elTg el).
Proof.
  intros LR. unfold getElPr.
  assert (X : exists m, (match elTg with None => Ok 0 | Some elTg => for_ 0 nEls (fun el m => tg <- rd elTg el ;; Ok (Nat.max m tg)) 0 end) = Ok m /\
    forall el, el < nEls -> tgOf elTg el < m + 1).
  { destruct elTg as [l|]; [|exists 0; split; auto; cbn; lia]. destruct (max_ok l nEls ltac:(lia)) as (m & E & H & _). exists m. split; auto.
    intros el He. cbn. specialize (H el He). lia. }
  destruct X as (m & -> & HT). cbn [bind]. set (T := m + 1) in *. clearbody T. clear m.
  exists T.
  loop (fun k (out : list nat) => length out = nEls /\ forall el, el < k -> exists b : bool, (b = true <-> crosses nElFas elFaEl elPa el) /\
     at_ out el = at_ elPa el * 2 * T + (if b then T else 0) + tgOf elTg el) as out E (L & H).
  - lia.
  - split; auto. intros; lia.
  - intros k out Hk (L & H). rdn 0. fold (at_ elPa k). wrn. destruct (isComm_ok nElFas nEls elFaEl M elPa k LP ltac:(lia)) as (b & -> & Hb). cbn [bind].
    assert (Y : exists o1, (if b then p <- rd (upd out k (at_ elPa k * 2 * T)) k ;; wr (upd out k (at_ elPa k * 2 * T)) k (p + T) else Ok (upd out k (at_ elPa k * 2 * T))) = Ok o1 /\
       o1 = upd out k (at_ elPa k * 2 * T + (if b then T else 0))).
    { destruct b.
      - rdn 0. wrn. eexists. split; [reflexivity|]. rewrite nth_upd_eq by lia. apply nth_error_ext'. intros i.
        rewrite !nth_error_upd, !length_upd. destruct ((k =? i) && (k <? length out)); auto.
      - rewrite Nat.add_0_r. eauto. }
    destruct Y as (o1 & -> & ->). cbn [bind]. set (v := at_ elPa k * 2 * T + (if b then T else 0)).
    assert (Z : exists o2, match elTg with Some elTg0 => tg <- rd elTg0 k ;; p <- rd (upd out k v) k ;; wr (upd out k v) k (p + tg) | None => Ok (upd out k v) end = Ok o2 /\
      length o2 = nEls /\ at_ o2 k = v + tgOf elTg k /\ forall e, e <> k -> at_ o2 e = at_ out e).
    { destruct elTg as [l|].
      - rdn 0. rdn 0. wrn. eexists. split; [reflexivity|]. rewrite !length_upd. split; auto. split.
        + rewrite at_upd by (rewrite length_upd; lia). rewrite Nat.eqb_refl, nth_upd_eq by lia. reflexivity.
        + intros e He. rewrite at_upd by (rewrite length_upd; lia). destruct (Nat.eqb_spec e k); [congruence|]. rewrite at_upd by lia. destruct (Nat.eqb_spec e k); congruence.
      - eexists. split; [reflexivity|]. rewrite length_upd. split; auto. split; [rewrite at_upd by lia; rewrite Nat.eqb_refl; cbn; lia|].
        intros e He. rewrite at_upd by lia. destruct (Nat.eqb_spec e k); congruence. }
    destruct Z as (o2 & -> & L2 & Z1 & Z2). exists o2. split; auto. split; auto. intros el He. destruct (Nat.eq_dec el k) as [->|Ne].
    + exists b. split; auto.
    + rewrite Z2 by auto. apply H. lia.
  - exists out. repeat split; auto.
Qed.
End Pr.

(** The priorities are those of the desired order. *)
Theorem C27_priorities nElFas nEls elFaEl elPa elTg elPr : mesh_ok nElFas nEls elFaEl -> length elPa = nEls ->
  match elTg with None => True | Some l => length l = nEls end -> length elPr = nEls ->
  exists out, getElPr nElFas nEls elFaEl elPa elTg elPr = Ok out /\ length out = nEls /\
    forall a b, a < nEls -> b < nEls -> at_ out a < at_ out b <-> precedes nElFas elFaEl elPa (tgOf elTg) a b.
Proof.
  intros M LP LT LR. destruct (getElPr_ok nElFas nEls elFaEl elPa elTg M LP LT elPr LR) as (T & out & E & L & HT & H).
  exists out. split; auto. split; auto. intros a b Ha Hb. destruct (H a Ha) as (ba & Ca & ->). destruct (H b Hb) as (bb & Cb & ->).
  pose proof (HT a Ha). pose proof (HT b Hb). unfold precedes. rewrite <- Ca, <- Cb.
  destruct (lt_eq_lt_dec (at_ elPa a) (at_ elPa b)) as [[Q|Q]|Q].
  - split; auto. intros _. destruct ba, bb; nia.
  - rewrite Q. destruct ba, bb; split; intros X; try (right; split; auto); try (destruct X as [?|(_ & [?|?])]); try (intuition (try lia; try congruence)).
  - split; intros X; [exfalso; destruct ba, bb; nia|]. destruct X as [X|(X & _)]; lia.
Qed.
Print Assumptions C27_priorities.

(** Every sorting of the elements by their priorities gives a mesh in the desired order, independent of the order of elements with
    equal priorities. *)
Theorem C27_layout nElFas nEls elFaEl elPa elTg elPr pr p elFaEl' elPa' elTg' : mesh_ok nElFas nEls elFaEl -> length elPa = nEls ->
  match elTg with None => True | Some l => length l = nEls end -> length elPr = nEls ->
  getElPr nElFas nEls elFaEl elPa elTg elPr = Ok pr ->
  renumbered nElFas nEls elFaEl elFaEl' p -> (forall i j, i < j -> j < nEls -> at_ pr (at_ p i) <= at_ pr (at_ p j)) ->
  mesh_ok nElFas nEls elFaEl' ->
  (forall i, i < nEls -> at_ elPa' i = at_ elPa (at_ p i)) -> (forall i, i < nEls -> tgOf elTg' i = tgOf elTg (at_ p i)) ->
  ordered nElFas nEls elFaEl' elPa' (tgOf elTg').
Proof.
  intros M LP LT LR E (PE & RA) S M' HP HT a b Hab Hb PR.
  destruct (C27_priorities nElFas nEls elFaEl elPa elTg elPr M LP LT LR) as (out & E' & L & H). assert (out = pr) as -> by congruence.
  specialize (S a b Hab Hb).
  assert (PL : length p = nEls) by (rewrite (Permutation_length PE); apply seq_length).
  assert (PB : forall i, i < nEls -> at_ p i < nEls).
  { intros i Hi. assert (In (at_ p i) (seq 0 nEls)) as X by (rewrite <- PE; apply nth_In; lia). apply in_seq in X. lia. }
  assert (PS : forall x, x < nEls -> exists i, i < nEls /\ at_ p i = x).
  { intros x Hx. assert (In x p) as X by (rewrite PE; apply in_seq; lia). apply (In_nth _ _ 0) in X as (i & Hi & Q). exists i. split; [lia|auto]. }
  assert (CR : forall i, i < nEls -> crosses nElFas elFaEl' elPa' i <-> crosses nElFas elFaEl elPa (at_ p i)).
  { intros i Hi. split.
    - intros (ad & A & N). assert (Had : ad < nEls) by (destruct M' as (_ & M2 & _); now apply (M2 i)). exists (at_ p ad). rewrite <- !HP by auto. split; auto. now apply RA.
    - intros (ad & A & N). assert (Had : ad < nEls) by (destruct M as (_ & M2 & _); apply (M2 (at_ p i)); auto). destruct (PS ad Had) as (j & Hj & <-).
      exists j. rewrite !HP by auto. split; auto. now apply RA. }
  assert (at_ pr (at_ p b) < at_ pr (at_ p a)); [|lia].
  apply H; [apply PB; lia|apply PB; lia|]. unfold precedes in *. rewrite <- !HP, <- !HT, <- !CR by lia. exact PR.
Qed.
Print Assumptions C27_layout.

(** In a mesh in the desired order the partitions are contiguous; inside of a partition the inner elements are followed by the send
    elements and both are sorted by time groups. *)
Theorem C27_contiguous nElFas nEls elFaEl elPa tg : mesh_ok nElFas nEls elFaEl -> length elPa = nEls -> ordered nElFas nEls elFaEl elPa tg ->
  (forall a b c, a <= b -> b <= c -> c < nEls -> at_ elPa a = at_ elPa c -> at_ elPa b = at_ elPa a) /\
  (forall a b, a < b -> b < nEls -> at_ elPa a = at_ elPa b -> crosses nElFas elFaEl elPa a -> crosses nElFas elFaEl elPa b) /\
  (forall a b, a < b -> b < nEls -> at_ elPa a = at_ elPa b -> (crosses nElFas elFaEl elPa a <-> crosses nElFas elFaEl elPa b) -> tg a <= tg b) /\
  (forall a b, a < b -> b < nEls -> at_ elPa a <= at_ elPa b).
Proof.
  intros M LP O.
  assert (PM : forall a b, a < b -> b < nEls -> at_ elPa a <= at_ elPa b).
  { intros a b Hab Hb. destruct (le_lt_dec (at_ elPa a) (at_ elPa b)); auto. exfalso. apply (O a b Hab Hb). left. auto. }
  split; [|split; [|split; [|exact PM]]].
  - intros a b c Hab Hbc Hc Q. destruct (Nat.eq_dec a b) as [->|]; auto. destruct (Nat.eq_dec b c) as [->|]; auto.
    pose proof (PM a b ltac:(lia) ltac:(lia)). pose proof (PM b c ltac:(lia) ltac:(lia)). lia.
  - intros a b Hab Hb Q C. destruct (isComm_ok nElFas nEls elFaEl M elPa b LP Hb) as (cb & _ & H). destruct cb; [now apply H|].
    exfalso. apply (O a b Hab Hb). right. split; auto. left. split; auto. rewrite <- H. discriminate.
  - intros a b Hab Hb Q C. destruct (le_lt_dec (tg a) (tg b)); auto. exfalso. apply (O a b Hab Hb). right. split; auto. right. split; [tauto|auto].
Qed.
Print Assumptions C27_contiguous.

(** nPaEls counts the elements of the partitions; entries after the last non-empty partition are not written. *)
Lemma filter_seq_S (f : nat -> bool) k : length (filter f (seq 0 (S k))) = length (filter f (seq 0 k)) + (if f k then 1 else 0).
Proof. rewrite seq_snoc, filter_app, app_length. cbn. destruct (f k); reflexivity. Qed.

Theorem C27_counts nEls elPa garbage : length elPa = nEls -> 0 < nEls -> (forall el, el < nEls -> at_ elPa el < length garbage) ->
  exists out, nPaEls nEls elPa garbage = Ok out /\ length out = length garbage /\
    (forall pa, (exists el, el < nEls /\ pa <= at_ elPa el) -> counts (fun el => el < nEls /\ at_ elPa el = pa) (at_ out pa)) /\
    (forall pa, (forall el, el < nEls -> at_ elPa el < pa) -> at_ out pa = at_ garbage pa).
Proof.
  intros LP HN HG. unfold nPaEls. destruct (max_ok elPa nEls ltac:(lia)) as (m & -> & H1 & H2 & _). cbn [bind].
  destruct (H2 HN) as (em & Hem & Em).
  assert (HM : m < length garbage) by (rewrite <- Em; auto).
  loop (fun k (o : list nat) => length o = length garbage /\ (forall pa, pa < k -> at_ o pa = 0) /\ (forall pa, k <= pa -> at_ o pa = at_ garbage pa)) as o0 E0 (L0 & Z0 & K0).
  - lia.
  - repeat split; auto. lia.
  - intros k o Hk (L0 & Z0 & K0). wrn. eexists. split; [reflexivity|]. rewrite length_upd. split; auto. split; intros pa Hp; rewrite at_upd by lia; destruct (Nat.eqb_spec pa k); auto; try lia; [apply Z0|apply K0]; lia.
  - loop (fun k (o : list nat) => length o = length garbage /\ (forall pa, pa <= m -> at_ o pa = length (filter (fun el => at_ elPa el =? pa) (seq 0 k))) /\
      (forall pa, m < pa -> at_ o pa = at_ garbage pa)) as o E (L & Z & K).
    + lia.
    + repeat split; auto; cbn; intros; [apply Z0|apply K0]; lia.
    + intros k o Hk (L & Z & K). rdn 0. fold (at_ elPa k). specialize (H1 k ltac:(lia)). rdn 0. fold (at_ o (at_ elPa k)). wrn. eexists. split; [reflexivity|]. rewrite length_upd.
      split; auto. split; intros pa Hp; rewrite at_upd by lia.
      * rewrite filter_seq_S, <- Z by auto. destruct (Nat.eqb_spec pa (at_ elPa k)) as [->|]; [rewrite Nat.eqb_refl|destruct (Nat.eqb_spec (at_ elPa k) pa)]; lia.
      * destruct (Nat.eqb_spec pa (at_ elPa k)); [lia|auto].
    + exists o. split; auto. split; auto. split.
      * intros pa (el & He & Hp). rewrite Z by (specialize (H1 el He); lia). apply counts_filter. intros x. now rewrite Nat.eqb_eq.
      * intros pa Hp. apply K. rewrite <- Em. auto.
Qed.
Print Assumptions C27_counts.

(** * C30 *)

Theorem C30_counts nElFas nPas nTgs nEls elFaEl elPa elTg nIn nSe : mesh_ok nElFas nEls elFaEl -> length elPa = nEls -> length elTg = nEls ->
  (forall el, el < nEls -> at_ elPa el < nPas /\ at_ elTg el < nTgs) -> length nIn = nPas * nTgs -> length nSe = nPas * nTgs ->
  exists inn se, nElsInSe nElFas nPas nTgs nEls elFaEl elPa elTg nIn nSe = Ok (inn, se) /\ length inn = nPas * nTgs /\ length se = nPas * nTgs /\
    forall pa tg, pa < nPas -> tg < nTgs ->
      counts (fun el => el < nEls /\ at_ elPa el = pa /\ at_ elTg el = tg /\ ~ crosses nElFas elFaEl elPa el) (at_ inn (pa * nTgs + tg)) /\
      counts (fun el => el < nEls /\ at_ elPa el = pa /\ at_ elTg el = tg /\ crosses nElFas elFaEl elPa el) (at_ se (pa * nTgs + tg)).
Proof.
  intros M LP LT HB LI LS. unfold nElsInSe.
  loop (fun k (s : list nat * list nat) => length (fst s) = nPas * nTgs /\ length (snd s) = nPas * nTgs /\ forall i, i < k * nTgs -> at_ (fst s) i = 0 /\ at_ (snd s) i = 0) as (in0 & se0) E0 (A1 & A2 & A3).
  - lia.
  - cbn. repeat split; auto; lia.
  - intros k s Hk (A1 & A2 & A3).
    loop (fun j (s : list nat * list nat) => length (fst s) = nPas * nTgs /\ length (snd s) = nPas * nTgs /\ forall i, i < k * nTgs + j -> at_ (fst s) i = 0 /\ at_ (snd s) i = 0) as s' E0 (B1 & B2 & B3).
    + lia.
    + repeat split; auto; apply A3; lia.
    + intros j (a & b) Hj (B1 & B2 & B3). cbn [fst snd] in *. assert (k * nTgs + j < nPas * nTgs) by nia. wrn. wrn. eexists. split; [reflexivity|]. cbn [fst snd]. rewrite !length_upd. repeat split; auto;
        rewrite at_upd by lia; destruct (Nat.eqb_spec i (k * nTgs + j)); auto; apply B3; lia.
    + exists s'. repeat split; auto; apply B3; lia.
  - cbn [fst snd] in *.
    set (cr := fun el => match isComm nElFas elFaEl elPa el with Ok b => b | Er _ => false end).
    assert (CR : forall el, el < nEls -> isComm nElFas elFaEl elPa el = Ok (cr el) /\ (cr el = true <-> crosses nElFas elFaEl elPa el)).
    { intros el He. unfold cr. destruct (isComm_ok nElFas nEls elFaEl M elPa el LP He) as (b & -> & H). auto. }
    set (f := fun c pa tg el => (at_ elPa el =? pa) && (at_ elTg el =? tg) && (if c : bool then cr el else negb (cr el))).
    assert (IDX : forall pa tg pa' tg', tg < nTgs -> tg' < nTgs -> pa * nTgs + tg = pa' * nTgs + tg' -> pa = pa' /\ tg = tg').
    { intros pa tg pa' tg' T T' Q. destruct (lt_eq_lt_dec pa pa') as [[?|?]|?]; [nia|subst; lia|nia]. }
    loop (fun k (s : list nat * list nat) => length (fst s) = nPas * nTgs /\ length (snd s) = nPas * nTgs /\ forall pa tg, pa < nPas -> tg < nTgs ->
      at_ (fst s) (pa * nTgs + tg) = length (filter (f false pa tg) (seq 0 k)) /\ at_ (snd s) (pa * nTgs + tg) = length (filter (f true pa tg) (seq 0 k))) as (inn & se) E (B1 & B2 & B3).
    + lia.
    + cbn. repeat split; auto; apply A3; nia.
    + intros k (a & b) Hk (B1 & B2 & B3). cbn [fst snd] in *. destruct (CR k ltac:(lia)) as (-> & _). cbn [bind]. rdn 0. rdn 0. fold (at_ elPa k) (at_ elTg k).
      destruct (HB k ltac:(lia)) as (Hp & Ht). assert (at_ elPa k * nTgs + at_ elTg k < nPas * nTgs) by nia.
      assert (UP : forall (l : list nat) c, length l = nPas * nTgs -> cr k = c -> (forall pa tg, pa < nPas -> tg < nTgs -> at_ l (pa * nTgs + tg) = length (filter (f c pa tg) (seq 0 k))) ->
        forall pa tg, pa < nPas -> tg < nTgs -> at_ (upd l (at_ elPa k * nTgs + at_ elTg k) (at_ l (at_ elPa k * nTgs + at_ elTg k) + 1)) (pa * nTgs + tg) = length (filter (f c pa tg) (seq 0 (S k)))).
      { intros l c L C H1 pa tg P T. rewrite filter_seq_S, at_upd by lia. rewrite <- H1 by auto. unfold f at 1.
        replace (if c then cr k else negb (cr k)) with true by (rewrite C; destruct c; auto). rewrite andb_true_r.
        destruct (Nat.eqb_spec (pa * nTgs + tg) (at_ elPa k * nTgs + at_ elTg k)) as [Q|Q].
        - apply IDX in Q as (-> & ->); auto. now rewrite !Nat.eqb_refl.
        - destruct (Nat.eqb_spec (at_ elPa k) pa) as [<-|]; [destruct (Nat.eqb_spec (at_ elTg k) tg) as [<-|]; [congruence|]|]; cbn; lia. }
      assert (NU : forall (l : list nat) c, cr k = negb c -> (forall pa tg, pa < nPas -> tg < nTgs -> at_ l (pa * nTgs + tg) = length (filter (f c pa tg) (seq 0 k))) ->
        forall pa tg, pa < nPas -> tg < nTgs -> at_ l (pa * nTgs + tg) = length (filter (f c pa tg) (seq 0 (S k)))).
      { intros l c C H1 pa tg P T. rewrite filter_seq_S, <- H1 by auto. unfold f. replace (if c then cr k else negb (cr k)) with false by (rewrite C; destruct c; auto). rewrite andb_false_r. lia. }
      destruct (cr k) eqn:C; cbn [negb].
      * rdn 0. fold (at_ b (at_ elPa k * nTgs + at_ elTg k)). wrn. eexists. split; [reflexivity|]. cbn [fst snd]. rewrite !length_upd. split; auto. split; auto. intros pa tg P T. split; [apply NU|apply UP]; auto; intros; now apply B3.
      * rdn 0. fold (at_ a (at_ elPa k * nTgs + at_ elTg k)). wrn. eexists. split; [reflexivity|]. cbn [fst snd]. rewrite !length_upd. split; auto. split; auto. intros pa tg P T. split; [apply UP|apply NU]; auto; intros; now apply B3.
    + cbn [fst snd] in *. exists inn, se. repeat split; auto; [destruct (B3 pa tg) as (-> & _)|destruct (B3 pa tg) as (_ & ->)]; auto; apply counts_filter; intros x; unfold f;
        rewrite !andb_true_iff, !Nat.eqb_eq; (split; [intros (X & X1 & X2 & X3)|intros (X & (X1 & X2) & X3)]); destruct (CR x X) as (_ & Y); clear - X X1 X2 X3 Y; destruct (cr x); cbn [negb] in *; intuition (try congruence; try discriminate).
Qed.
Print Assumptions C30_counts.

(** * C31 *)

(** Elements adjacent to [el] through its first [n] faces, in the order of the faces. *)
Definition nbrsTo (nElFas : nat) (elFaEl : list (option nat)) (el n : nat) : list nat :=
  flat_map (fun fa => match nth_error elFaEl (el * nElFas + fa) with Some (Some ad) => [ad] | _ => [] end) (seq 0 n).
Definition nbrs (nElFas : nat) (elFaEl : list (option nat)) (el : nat) : list nat := nbrsTo nElFas elFaEl el nElFas.
(** Number of adjacent elements, counted per face, of the elements before [el]. *)
Definition nAdj (nElFas : nat) (elFaEl : list (option nat)) (el : nat) : nat := list_sum (map (fun e => length (nbrs nElFas elFaEl e)) (seq 0 el)).
(** Row of a graph in the format of METIS. *)
Definition row (xadj adjncy : list nat) (el : nat) : list nat := firstn (at_ xadj (S el) - at_ xadj el) (skipn (at_ xadj el) adjncy).

Lemma nbrsTo_S nElFas elFaEl el n : nbrsTo nElFas elFaEl el (S n) =
  nbrsTo nElFas elFaEl el n ++ match nth_error elFaEl (el * nElFas + n) with Some (Some ad) => [ad] | _ => [] end.
Proof. unfold nbrsTo. rewrite seq_snoc, flat_map_app. cbn. now rewrite app_nil_r. Qed.
Lemma nAdj_S nElFas elFaEl el : nAdj nElFas elFaEl (S el) = nAdj nElFas elFaEl el + length (nbrs nElFas elFaEl el).
Proof. unfold nAdj. rewrite seq_snoc, map_app, list_sum_app. cbn. lia. Qed.
Lemma nAdj_mono nElFas elFaEl a b : a <= b -> nAdj nElFas elFaEl a <= nAdj nElFas elFaEl b.
Proof. induction 1; auto. rewrite nAdj_S. lia. Qed.
Lemma In_nbrs nElFas elFaEl el ad : In ad (nbrs nElFas elFaEl el) <-> adj nElFas elFaEl el ad.
Proof.
  unfold nbrs, nbrsTo, adj. rewrite in_flat_map. split.
  - intros (fa & F & I). apply in_seq in F. exists fa. split; [lia|]. destruct (nth_error elFaEl (el * nElFas + fa)) as [[x|]|]; try (now destruct I). destruct I as [->|[]]. reflexivity.
  - intros (fa & F & E). exists fa. rewrite E. split; [apply in_seq; lia|now left].
Qed.
Lemma nbrsTo_le nElFas elFaEl el a b : a <= b -> length (nbrsTo nElFas elFaEl el a) <= length (nbrsTo nElFas elFaEl el b).
Proof. induction 1; auto. rewrite nbrsTo_S, app_length. lia. Qed.

Lemma insertNat_perm a l : Permutation (a :: l) (insertNat a l).
Proof. induction l as [|b l IH]; cbn; auto. destruct (a <=? b); auto. rewrite perm_swap. now constructor. Qed.
Lemma sortNat_perm l : Permutation l (sortNat l).
Proof. induction l as [|a l IH]; auto. change (sortNat (a :: l)) with (insertNat a (sortNat l)). rewrite <- insertNat_perm. now constructor. Qed.
Lemma insertNat_sorted a l : StronglySorted le l -> StronglySorted le (insertNat a l).
Proof.
  induction 1 as [|b l S IH F]; cbn; [repeat constructor|]. destruct (Nat.leb_spec a b).
  - constructor; [constructor; auto|]. constructor; auto. eapply Forall_impl; [|exact F]. cbn. lia.
  - constructor; auto. rewrite <- insertNat_perm. constructor; [lia|auto].
Qed.
Lemma sortNat_sorted l : StronglySorted le (sortNat l).
Proof. induction l as [|a l IH]; [constructor|]. change (sortNat (a :: l)) with (insertNat a (sortNat l)). now apply insertNat_sorted. Qed.
Lemma sortNat_id l : StronglySorted le l -> sortNat l = l.
Proof.
  induction 1 as [|a l S IH F]; auto. change (sortNat (a :: l)) with (insertNat a (sortNat l)). rewrite IH. destruct l as [|b l]; auto. cbn. inversion F; subst. now replace (a <=? b) with true by lia.
Qed.

Lemma firstn_upd {A} (l : list A) n v : n < length l -> firstn (S n) (upd l n v) = firstn n l ++ [v].
Proof.
  intros H. rewrite (firstn_S_snoc _ n v) by (apply nth_error_upd_eq; auto). f_equal.
  revert n H. induction l as [|x l IH]; intros [|n] H; cbn in *; auto. f_equal. apply IH. lia.
Qed.
Lemma firstn_upd_out {A} (l : list A) k n v : k <= n -> firstn k (upd l n v) = firstn k l.
Proof. revert k n. induction l as [|x l IH]; intros [|k] [|n] H; cbn; auto; [lia|]. f_equal. apply IH. lia. Qed.

Lemma getDualGraph_ok nElFas nEls elFaEl xadj adjncy : mesh_ok nElFas nEls elFaEl -> length xadj = nEls + 1 -> nAdj nElFas elFaEl nEls <= length adjncy ->
  exists X A, getDualGraph nElFas nEls elFaEl xadj adjncy = Ok (X, A) /\ length X = nEls + 1 /\ length A = length adjncy /\
    (forall el, el <= nEls -> at_ X el = nAdj nElFas elFaEl el) /\
    firstn (nAdj nElFas elFaEl nEls) A = flat_map (fun e => sortNat (nbrs nElFas elFaEl e)) (seq 0 nEls).
Proof.
  intros (ML & MR & _) LX LA. unfold getDualGraph. wrn.
  loop (fun k (s : list nat * list nat * nat) => let '(X, A, i) := s in length X = nEls + 1 /\ length A = length adjncy /\
    (forall el, el <= k -> at_ X el = nAdj nElFas elFaEl el) /\ i = nAdj nElFas elFaEl k /\
    firstn (nAdj nElFas elFaEl k) A = flat_map (fun e => sortNat (nbrs nElFas elFaEl e)) (seq 0 k)) as ((X & A) & i) E (I1 & I2 & I3 & I4 & I5).
  - lia.
  - rewrite length_upd. repeat split; auto. intros [|el] H; [|lia]. rewrite at_upd by lia. reflexivity.
  - intros k ((X & A) & i) Hk (I1 & I2 & I3 & I4 & I5). rdn 0. fold (at_ X k). wrn. rewrite I3 by lia.
    pose proof (nAdj_mono nElFas elFaEl (S k) nEls ltac:(lia)) as NM. rewrite nAdj_S in NM.
    loop (fun fa (s : list nat * list nat * nat) => let '(X, A, i) := s in length X = nEls + 1 /\ length A = length adjncy /\
      (forall el, el <= k -> at_ X el = nAdj nElFas elFaEl el) /\ i = nAdj nElFas elFaEl k + length (nbrsTo nElFas elFaEl k fa) /\ at_ X (k + 1) = i /\
      firstn i A = flat_map (fun e => sortNat (nbrs nElFas elFaEl e)) (seq 0 k) ++ nbrsTo nElFas elFaEl k fa) as ((X' & A') & i') E (J1 & J2 & J3 & J4 & J5 & J6).
    + lia.
    + rewrite length_upd. split; auto. split; auto. split; [intros el He; rewrite at_upd by lia; destruct (Nat.eqb_spec el (k + 1)); [lia|auto]|].
      split; [cbn; lia|]. split; [rewrite at_upd by lia; now rewrite Nat.eqb_refl|]. rewrite I4, I5. cbn. now rewrite app_nil_r.
    + intros fa ((X' & A') & i') Hfa (J1 & J2 & J3 & J4 & J5 & J6). destruct (rd_adj nElFas nEls elFaEl k fa ML ltac:(lia) ltac:(lia)) as (o & -> & Eo). cbn [bind].
      destruct o as [ad|].
      * assert (LN : length (nbrsTo nElFas elFaEl k (S fa)) = length (nbrsTo nElFas elFaEl k fa) + 1) by (rewrite nbrsTo_S, Eo, app_length; reflexivity).
        pose proof (nbrsTo_le nElFas elFaEl k (S fa) nElFas ltac:(lia)) as LE. unfold nbrs in NM.
        wrn. rdn 0. fold (at_ X' (k + 1)). wrn. eexists. split; [reflexivity|]. cbn beta iota. rewrite !length_upd. split; auto. split; auto.
        split; [intros el He; rewrite at_upd by lia; destruct (Nat.eqb_spec el (k + 1)); [lia|auto]|]. split; [lia|].
        split; [rewrite at_upd by lia; rewrite Nat.eqb_refl; lia|]. rewrite Nat.add_1_r, firstn_upd by lia. rewrite J6, nbrsTo_S, Eo. now rewrite app_assoc.
      * eexists. split; [reflexivity|]. cbn beta iota. rewrite nbrsTo_S, Eo, app_nil_r. repeat split; auto.
    + fold (nbrs nElFas elFaEl k) in *. rdn 0. rdn 0. fold (at_ X' k) (at_ X' (k + 1)). rewrite J5, J3 by lia.
      unfold sortRange. replace ((nAdj nElFas elFaEl k <=? i') && (i' <=? length A')) with true by lia. cbn [bind].
      eexists. split; [reflexivity|]. cbn beta iota.
      assert (LF : length (firstn (nAdj nElFas elFaEl k) A') = nAdj nElFas elFaEl k) by (rewrite firstn_length; lia).
      assert (FK : firstn (nAdj nElFas elFaEl k) A' = flat_map (fun e => sortNat (nbrs nElFas elFaEl e)) (seq 0 k)).
      { assert (X1 : firstn (nAdj nElFas elFaEl k) (firstn i' A') = firstn (nAdj nElFas elFaEl k) A') by (rewrite firstn_firstn; f_equal; lia).
        rewrite <- X1, J6, firstn_app. rewrite <- I5 at 1. rewrite <- I5. rewrite firstn_firstn, firstn_length. rewrite Nat.min_id, Nat.min_l by lia. rewrite Nat.sub_diag. cbn [firstn]. apply app_nil_r. }
      assert (SL : firstn (i' - nAdj nElFas elFaEl k) (skipn (nAdj nElFas elFaEl k) A') = nbrs nElFas elFaEl k).
      { rewrite firstn_skipn_comm. replace (nAdj nElFas elFaEl k + (i' - nAdj nElFas elFaEl k)) with i' by lia. rewrite J6, <- FK.
        rewrite <- LF at 1. now rewrite skipn_app, skipn_all, Nat.sub_diag. }
      rewrite SL. split; auto. split; [|split; [|split]].
      * rewrite !app_length, skipn_length, LF. rewrite <- (Permutation_length (sortNat_perm _)). lia.
      * intros el He. destruct (Nat.eq_dec el (S k)) as [->|]; [|apply J3; lia]. rewrite <- Nat.add_1_r at 1. rewrite J5, nAdj_S. auto.
      * rewrite nAdj_S. auto.
      * rewrite nAdj_S, <- J4, seq_snoc, flat_map_app. cbn [flat_map]. rewrite app_nil_r, app_assoc, firstn_app.
        assert (LL : length (firstn (nAdj nElFas elFaEl k) A' ++ sortNat (nbrs nElFas elFaEl k)) = i') by (rewrite app_length, LF, <- (Permutation_length (sortNat_perm _)); lia).
        rewrite LL, Nat.sub_diag, app_nil_r, firstn_all2 by lia. now rewrite FK.
  - cbn [bind]. exists X, A. repeat split; auto. 
Qed.

Lemma flat_rows {A} (f : nat -> list A) n el : el < n ->
  firstn (length (f el)) (skipn (list_sum (map (fun e => length (f e)) (seq 0 el))) (flat_map f (seq 0 n))) = f el.
Proof.
  intros H. replace n with (el + S (n - S el)) by lia. rewrite seq_app, flat_map_app. cbn [seq flat_map Nat.add].
  assert (L : length (flat_map f (seq 0 el)) = list_sum (map (fun e => length (f e)) (seq 0 el))).
  { generalize (seq 0 el). induction l as [|a l IH]; cbn; auto. rewrite app_length. f_equal. exact IH. }
  rewrite <- L, skipn_app, skipn_all, Nat.sub_diag. cbn. rewrite firstn_app, firstn_all, Nat.sub_diag. cbn. apply app_nil_r.
Qed.

(** The dual graph is a graph in the format of METIS, and its edges are the face adjacencies of the mesh, one edge per face. *)
Theorem C31_graph nElFas nEls elFaEl xadj adjncy : mesh_ok nElFas nEls elFaEl -> length xadj = nEls + 1 -> length adjncy = nAdj nElFas elFaEl nEls ->
  exists X A, getDualGraph nElFas nEls elFaEl xadj adjncy = Ok (X, A) /\ length X = nEls + 1 /\ length A = length adjncy /\
    at_ X 0 = 0 /\ (forall el, el < nEls -> at_ X el <= at_ X (S el)) /\ at_ X nEls = length A /\
    (forall el, el < nEls -> StronglySorted le (row X A el) /\ Permutation (row X A el) (nbrs nElFas elFaEl el)) /\
    (forall el ad, el < nEls -> In ad (row X A el) <-> adj nElFas elFaEl el ad) /\
    (forall el ad, el < nEls -> ad < nEls -> In ad (row X A el) <-> In el (row X A ad)).
Proof.
  intros M LX LA. destruct (getDualGraph_ok nElFas nEls elFaEl xadj adjncy M LX ltac:(lia)) as (X & A & E & L1 & L2 & HX & HA).
  exists X, A. rewrite firstn_all2 in HA by lia.
  assert (R : forall el, el < nEls -> row X A el = sortNat (nbrs nElFas elFaEl el)).
  { intros el He. unfold row. rewrite !HX by lia. rewrite nAdj_S. replace (nAdj nElFas elFaEl el + length (nbrs nElFas elFaEl el) - nAdj nElFas elFaEl el) with (length (sortNat (nbrs nElFas elFaEl el))) by (rewrite <- (Permutation_length (sortNat_perm _)); lia).
    rewrite HA. replace (nAdj nElFas elFaEl el) with (list_sum (map (fun e => length (sortNat (nbrs nElFas elFaEl e))) (seq 0 el))) by (unfold nAdj; f_equal; apply map_ext; intros; symmetry; apply Permutation_length, sortNat_perm).
    now apply (flat_rows (fun e => sortNat (nbrs nElFas elFaEl e))). }
  assert (IN : forall el ad, el < nEls -> In ad (row X A el) <-> adj nElFas elFaEl el ad).
  { intros el ad He. rewrite R by auto. rewrite <- In_nbrs. split; apply Permutation_in; [symmetry|]; apply sortNat_perm. }
  repeat match goal with |- _ /\ _ => split end; auto.
  - rewrite HX by lia. reflexivity.
  - intros el He. rewrite !HX by lia. apply nAdj_mono. lia.
  - rewrite HX by lia. lia.
  - intros el He. rewrite R by auto. split; [apply sortNat_sorted|symmetry; apply sortNat_perm].
  - intros el ad He Ha. rewrite !IN by auto. destruct M as (_ & _ & MS). split; apply MS.
Qed.
Print Assumptions C31_graph.

Lemma double_ok (l : list nat) i a b : i < length l -> for_ a b (fun _ l => w <- rd l i ;; wr l i (w * 2)) l = Ok (upd l i (at_ l i * 2 ^ (b - a))).
Proof.
  intros H. unfold for_. generalize (b - a) as n. intros n. revert a l H. induction n as [|n IH]; intros a l H; cbn [for_n].
  - cbn [Nat.pow]. rewrite Nat.mul_1_r. f_equal. apply nth_error_ext'. intros j. destruct (Nat.eq_dec i j) as [->|]; [|now rewrite nth_error_upd_ne by auto].
    rewrite nth_error_upd_eq by auto. apply nth_error_nth'. auto.
  - rdn 0. wrn. rewrite IH by (rewrite length_upd; auto). f_equal. rewrite at_upd by auto. rewrite Nat.eqb_refl. fold (at_ l i).
    replace (at_ l i * 2 * 2 ^ n) with (at_ l i * 2 ^ S n) by (cbn [Nat.pow]; lia). apply nth_error_ext'. intros j. rewrite !nth_error_upd, length_upd.
    destruct ((i =? j) && (i <? length l)); auto.
Qed.

(** Weight of the edge between [el] and [ad]. *)
Definition edgeW (elTg : list nat) (tgMax el ad : nat) : nat := 2 ^ (tgMax - Nat.min (at_ elTg el) (at_ elTg ad)).

Lemma getWeights_ok nElFas nEls elFaEl elTg vwgt adjwgt : mesh_ok nElFas nEls elFaEl -> length elTg = nEls -> length vwgt = nEls ->
  length adjwgt = nAdj nElFas elFaEl nEls -> 0 < nEls ->
  exists tgMax V W, getWeights nElFas nEls (length adjwgt) elFaEl elTg vwgt adjwgt = Ok (V, W) /\ length V = nEls /\
    (forall el, el < nEls -> at_ elTg el <= tgMax) /\ (exists el, el < nEls /\ at_ elTg el = tgMax) /\
    (forall el, el < nEls -> at_ V el = 2 ^ (tgMax - at_ elTg el)) /\
    W = flat_map (fun e => map (edgeW elTg tgMax e) (nbrs nElFas elFaEl e)) (seq 0 nEls).
Proof.
  intros (ML & MR & _) LT LV LA HN. unfold getWeights. destruct (max_ok elTg nEls ltac:(lia)) as (m & Em & H1 & H2 & _). destruct (H2 HN) as (em & Hem & Qm).
  loop (fun k (s : nat * list nat) => length (snd s) = nEls /\ (forall el, el < k -> at_ (snd s) el = 1) /\ for_ 0 k (fun el m => x <- rd elTg el ;; Ok (Nat.max m x)) 0 = Ok (fst s)) as (m' & V0) E (I1 & I2 & I3).
  - lia.
  - repeat split; auto. intros; lia.
  - intros k (m' & V) Hk (I1 & I2 & I3). cbn [fst snd] in *. rdn 0. wrn. eexists. split; [reflexivity|]. cbn [fst snd]. rewrite length_upd. split; auto. split.
    + intros el He. rewrite at_upd by lia. destruct (Nat.eqb_spec el k); auto. apply I2. lia.
    + assert (SN : forall n a, for_ 0 n (fun el m => x <- rd elTg el ;; Ok (Nat.max m x)) 0 = Ok a -> for_ 0 (S n) (fun el m => x <- rd elTg el ;; Ok (Nat.max m x)) 0 = (x <- rd elTg n ;; Ok (Nat.max a x))).
      { intros n a Q. unfold for_ in *. rewrite Nat.sub_0_r in *.
        assert (G : forall (f : nat -> nat -> res nat) n i s, for_n (S n) i f s = (s' <- for_n n i f s ;; f (i + n) s')).
        { intros f. induction n0 as [|n0 IH]; intros i s; [cbn; rewrite Nat.add_0_r; destruct (f i s); auto|].
          change (for_n (S (S n0)) i f s) with (s' <- f i s ;; for_n (S n0) (S i) f s'). change (for_n (S n0) i f s) with (s' <- f i s ;; for_n n0 (S i) f s').
          destruct (f i s) as [a0|]; cbn [bind]; auto. rewrite IH. replace (S i + n0) with (i + S n0) by lia. reflexivity. }
        rewrite G, Q. reflexivity. }
      rewrite (SN _ _ I3). now rdn 0.
  - cbn [fst snd] in *. assert (m' = m) as -> by congruence. clear I3.
    loop (fun k (s : list nat) => length s = length adjwgt /\ (forall i, i < k -> at_ s i = 1)) as W0 E0 (J1 & J2).
    + lia.
    + split; auto. intros; lia.
    + intros k s Hk (J1 & J2). wrn. eexists. split; [reflexivity|]. rewrite length_upd. split; auto. intros i Hi. rewrite at_upd by lia. destruct (Nat.eqb_spec i k); auto. apply J2. lia.
    + set (wrow := fun e => map (edgeW elTg m e) (nbrs nElFas elFaEl e)).
      loop (fun k (s : list nat * list nat * nat) => let '(V, W, i) := s in length V = nEls /\ length W = length adjwgt /\ i = nAdj nElFas elFaEl k /\
        (forall el, el < k -> at_ V el = 2 ^ (m - at_ elTg el)) /\ (forall el, k <= el -> el < nEls -> at_ V el = 1) /\
        firstn i W = flat_map wrow (seq 0 k) /\ (forall j, i <= j -> j < length W -> at_ W j = 1)) as ((V & W) & i) E1 (K1 & K2 & K3 & K4 & K5 & K6 & K7).
      * lia.
      * repeat split; auto; try (intros; lia). intros j Hj Hl. apply J2. lia.
      * intros k ((V & W) & i) Hk (K1 & K2 & K3 & K4 & K5 & K6 & K7). rdn 0. fold (at_ elTg k). rewrite double_ok by lia. cbn [bind].
        pose proof (nAdj_mono nElFas elFaEl (S k) nEls ltac:(lia)) as NM. rewrite nAdj_S in NM.
        loop (fun fa (s : list nat * nat) => let '(W, i) := s in length W = length adjwgt /\ i = nAdj nElFas elFaEl k + length (nbrsTo nElFas elFaEl k fa) /\
          firstn i W = flat_map wrow (seq 0 k) ++ map (edgeW elTg m k) (nbrsTo nElFas elFaEl k fa) /\ (forall j, i <= j -> j < length W -> at_ W j = 1)) as (W' & i') E2 (P1 & P2 & P3 & P4).
        -- lia.
        -- repeat split; auto; [cbn; lia|]. cbn. rewrite app_nil_r. auto.
        -- intros fa (W' & i') Hfa (P1 & P2 & P3 & P4). destruct (rd_adj nElFas nEls elFaEl k fa ML ltac:(lia) ltac:(lia)) as (o & -> & Eo). cbn [bind]. destruct o as [ad|].
           ++ assert (LN : length (nbrsTo nElFas elFaEl k (S fa)) = length (nbrsTo nElFas elFaEl k fa) + 1) by (rewrite nbrsTo_S, Eo, app_length; reflexivity).
              pose proof (nbrsTo_le nElFas elFaEl k (S fa) nElFas ltac:(lia)) as LE. unfold nbrs in NM.
              assert (ad < nEls) by (apply (MR k); [lia|]; exists fa; split; [lia|auto]).
              rdn 0. fold (at_ elTg ad). rewrite double_ok by lia. cbn [bind]. eexists. split; [reflexivity|]. cbn beta iota. rewrite length_upd. split; auto. split; [lia|].
              rewrite P4 by lia. rewrite Nat.mul_1_l. split.
              ** rewrite Nat.add_1_r, firstn_upd by lia. rewrite P3, nbrsTo_S, Eo, map_app, app_assoc. reflexivity.
              ** intros j Hj Hl. rewrite at_upd by lia. destruct (Nat.eqb_spec j i'); [lia|]. apply P4; lia.
           ++ eexists. split; [reflexivity|]. cbn beta iota. rewrite nbrsTo_S, Eo, app_nil_r. repeat split; auto.
        -- eexists. split; [reflexivity|]. cbn beta iota. rewrite length_upd. split; auto. split; auto. split; [rewrite nAdj_S; exact P2|]. split; [|split; [|split; auto]].
           ++ intros el He. rewrite at_upd by lia. destruct (Nat.eqb_spec el k) as [->|]; [rewrite K5 by lia; apply Nat.mul_1_l|apply K4; lia].
           ++ intros el He He'. rewrite at_upd by lia. destruct (Nat.eqb_spec el k); [lia|]. apply K5; lia.
           ++ rewrite P3, seq_snoc, flat_map_app. cbn [flat_map]. now rewrite app_nil_r.
      * exists m, V, W. split; auto. split; auto. split; auto. split; [eauto|]. split; auto. rewrite firstn_all2 in K6 by lia. exact K6.
Qed.

(** The part of the claim on the weights which holds: vertex weights are as documented; edge weights are stored in the order of the
    faces, thus they belong to the edges at the same position if the adjacent elements ascend with the faces.  Missing: the positions
    in general, which fail, see C31_weights_refuted. *)
Theorem C31_weights_partial nElFas nEls elFaEl xadj adjncy elTg vwgt adjwgt : mesh_ok nElFas nEls elFaEl -> length elTg = nEls -> length vwgt = nEls ->
  length xadj = nEls + 1 -> length adjncy = nAdj nElFas elFaEl nEls -> length adjwgt = length adjncy -> 0 < nEls ->
  exists tgMax X A V W, getDualGraph nElFas nEls elFaEl xadj adjncy = Ok (X, A) /\ getWeights nElFas nEls (length adjwgt) elFaEl elTg vwgt adjwgt = Ok (V, W) /\
    (forall el, el < nEls -> at_ elTg el <= tgMax) /\ (exists el, el < nEls /\ at_ elTg el = tgMax) /\
    (forall el, el < nEls -> at_ V el = 2 ^ (tgMax - at_ elTg el)) /\
    (forall el, el < nEls -> row X W el = map (edgeW elTg tgMax el) (nbrs nElFas elFaEl el) /\ Permutation (row X W el) (map (edgeW elTg tgMax el) (row X A el)) /\
       (StronglySorted le (nbrs nElFas elFaEl el) -> row X W el = map (edgeW elTg tgMax el) (row X A el))).
Proof.
  intros M LT LV LX LA LW HN. destruct (getDualGraph_ok nElFas nEls elFaEl xadj adjncy M LX ltac:(lia)) as (X & A & E & L1 & L2 & HX & HA).
  destruct (getWeights_ok nElFas nEls elFaEl elTg vwgt adjwgt M LT LV ltac:(lia) HN) as (m & V & W & E' & L3 & T1 & T2 & HV & HW).
  exists m, X, A, V, W. split; auto. split; auto. split; auto. split; auto. split; auto. intros el He.
  rewrite firstn_all2 in HA by lia.
  assert (R : row X A el = sortNat (nbrs nElFas elFaEl el)).
  { unfold row. rewrite !HX by lia. rewrite nAdj_S. replace (nAdj nElFas elFaEl el + length (nbrs nElFas elFaEl el) - nAdj nElFas elFaEl el) with (length (sortNat (nbrs nElFas elFaEl el))) by (rewrite <- (Permutation_length (sortNat_perm _)); lia).
    rewrite HA. replace (nAdj nElFas elFaEl el) with (list_sum (map (fun e => length (sortNat (nbrs nElFas elFaEl e))) (seq 0 el))) by (unfold nAdj; f_equal; apply map_ext; intros; symmetry; apply Permutation_length, sortNat_perm).
    now apply (flat_rows (fun e => sortNat (nbrs nElFas elFaEl e))). }
  assert (RW : row X W el = map (edgeW elTg m el) (nbrs nElFas elFaEl el)).
  { unfold row. rewrite !HX by lia. rewrite nAdj_S. replace (nAdj nElFas elFaEl el + length (nbrs nElFas elFaEl el) - nAdj nElFas elFaEl el) with (length (map (edgeW elTg m el) (nbrs nElFas elFaEl el))) by (rewrite map_length; lia).
    rewrite HW. replace (nAdj nElFas elFaEl el) with (list_sum (map (fun e => length (map (edgeW elTg m e) (nbrs nElFas elFaEl e))) (seq 0 el))) by (unfold nAdj; f_equal; apply map_ext; intros; apply map_length).
    now apply (flat_rows (fun e => map (edgeW elTg m e) (nbrs nElFas elFaEl e))). }
  rewrite R, RW. split; auto. split; [apply Permutation_map, sortNat_perm|]. intros S. now rewrite sortNat_id.
Qed.
Print Assumptions C31_weights_partial.

(** A chain of three elements; the middle one stores the adjacent element with the larger id first. *)
Theorem C31_weights_refuted : exists nElFas nEls elFaEl elTg X A V W tgMax el k, mesh_ok nElFas nEls elFaEl /\ length elTg = nEls /\
  getDualGraph nElFas nEls elFaEl (repeat 0 (nEls + 1)) (repeat 0 (nAdj nElFas elFaEl nEls)) = Ok (X, A) /\
  getWeights nElFas nEls (nAdj nElFas elFaEl nEls) elFaEl elTg (repeat 0 nEls) (repeat 0 (nAdj nElFas elFaEl nEls)) = Ok (V, W) /\
  (forall el, el < nEls -> at_ elTg el <= tgMax) /\ (exists el, el < nEls /\ at_ elTg el = tgMax) /\
  el < nEls /\ at_ X el <= k < at_ X (S el) /\ at_ W k <> edgeW elTg tgMax el (at_ A k).
Proof.
  exists 2, 3, [Some 1; None; Some 2; Some 0; Some 1; None], [0; 1; 2]. eexists _, _, _, _, 2, 1, 1.
  split; [|split; [reflexivity|split; [vm_compute; reflexivity|split; [vm_compute; reflexivity|]]]].
  - split; [reflexivity|].
    assert (ADJ : forall el ad, adj 2 [Some 1; None; Some 2; Some 0; Some 1; None] el ad -> (el = 0 /\ ad = 1) \/ (el = 1 /\ ad = 0) \/ (el = 1 /\ ad = 2) \/ (el = 2 /\ ad = 1)).
    { intros el ad ([|[|f]] & Hf & E); try lia; destruct el as [|[|[|el]]]; cbn in E; try discriminate; inversion E; auto; destruct el; cbn in E; discriminate. }
    split.
    + intros el ad _ H. apply ADJ in H. lia.
    + intros el ad H. apply ADJ in H as [(-> & ->)|[(-> & ->)|[(-> & ->)|(-> & ->)]]]; [exists 1|exists 0|exists 0|exists 0]; split; auto.
  - split; [intros [|[|[|el]]] H; cbn; lia|]. split; [exists 2; cbn; lia|]. split; [lia|]. vm_compute. split; [lia|discriminate].
Qed.
Print Assumptions C31_weights_refuted.

(** * Examples *)

Definition exMesh : list (option nat) := [None; Some 1; Some 0; Some 2; Some 1; Some 3; Some 2; Some 4; Some 3; None].

Lemma exMesh_ok : mesh_ok 2 5 exMesh.
Proof.
  split; [reflexivity|].
  assert (ADJ : forall el ad, adj 2 exMesh el ad <-> el < 5 /\ ad < 5 /\ (el = ad + 1 \/ ad = el + 1)).
  { intros el ad. split.
    - intros ([|[|f]] & Hf & E); try lia; do 5 (destruct el as [|el]; [cbn in E; try discriminate; inversion E; lia|]); cbn in E; destruct el; discriminate.
    - intros (A & B & [-> | ->]); [exists 0|exists 1]; split; auto; [do 5 (destruct ad as [|ad]; [lia || reflexivity|])|do 5 (destruct el as [|el]; [lia || reflexivity|])]; lia. }
  split; intros el ad; rewrite !ADJ; lia.
Qed.

(** A chain of five elements in two partitions. *)
Example C27_ex : getElPr 2 5 exMesh [1; 1; 1; 0; 0] (Some [0; 0; 1; 1; 0]) (repeat 0 5) = Ok [4; 4; 7; 3; 0] /\
  nPaEls 5 [1; 1; 1; 0; 0] [7; 7; 7] = Ok [2; 3; 7].
Proof. split; vm_compute; reflexivity. Qed.

Example C30_ex : nElsInSe 2 2 2 5 exMesh [0; 0; 1; 1; 1] [0; 1; 1; 0; 0] (repeat 9 4) (repeat 9 4) = Ok ([1; 0; 2; 0], [0; 1; 0; 1]).
Proof. vm_compute. reflexivity. Qed.

Example C31_ex : getDualGraph 2 5 exMesh (repeat 9 6) (repeat 9 8) = Ok ([0; 1; 3; 5; 7; 8], [1; 0; 2; 1; 3; 2; 4; 3]).
Proof. vm_compute. reflexivity. Qed.
