(** Proofs about the point sources. *)
From Coq Require Import Sorted Permutation.
From Verif Require Import Util Sources.

Arguments mkRaw {T}. Arguments wEls {T}. Arguments wTime {T}. Arguments wDt {T}. Arguments wSca {T}. Arguments wPtr {T}. Arguments wTs {T}.
Arguments mkPs {T}. Arguments pEl {T}. Arguments pTime {T}. Arguments pDt {T}. Arguments pBas {T}. Arguments pSca {T}. Arguments pPtr {T}. Arguments pTs {T}.

(** the sorting function returns an ascending permutation *)
Definition sorts (srt : (nat -> nat) -> list nat -> list nat) : Prop :=
  forall key l, Permutation l (srt key l) /\ StronglySorted (fun a b => key a <= key b) (srt key l).
(** allocated memory has the right size *)
Definition allocates {A} (mem : nat -> list A) : Prop := forall n, length (mem n) = n.

(** ids of the points within element e, and of all points with an element *)
Definition isEl (o : option nat) (e : nat) : bool := match o with Some x => x =? e | None => false end.
Definition pointsIn (els : list (option nat)) (e : nat) : list nat := filter (fun i => isEl (nth i els None) e) (seq 0 (length els)).
Definition active (els : list (option nat)) : list nat := filter (fun i => match nth i els None with Some _ => true | None => false end) (seq 0 (length els)).
Definition elN (els : list (option nat)) (i : nat) : nat := match nth i els None with Some e => e | None => 0 end.

Lemma getAcDu_ok els : getAcDu els = Ok (active els, map (elN els) (active els)).
Proof.
  unfold getAcDu. 
  set (act := fun n => filter (fun i => match nth i els None with Some _ => true | None => false end) (seq 0 n)).
  match goal with |- for_ 0 _ ?bd _ = _ => destruct (for_ok (fun n s => s = (act n, map (elN els) (act n))) 0 (length els) bd ([], [])) as (s & E & H) end; [lia|reflexivity| |].
  - intros k s Hk ->. rewrite (rd_ok _ k None) by lia. cbn [bind].
    assert (SQ : act (S k) = act k ++ (if match nth k els None with Some _ => true | None => false end then [k] else [])) by (unfold act; rewrite seq_snoc, filter_app; reflexivity).
    destruct (nth k els None) as [e|] eqn:En; eexists; (split; [reflexivity|]); rewrite SQ.
    + rewrite map_app. cbn. unfold elN at 3. rewrite En. reflexivity.
    + rewrite app_nil_r. reflexivity.
  - rewrite E, H. reflexivity.
Qed.

Lemma In_active els i : In i (active els) <-> exists e, nth i els None = Some e.
Proof.
  unfold active. rewrite filter_In, in_seq. split.
  - intros (_ & H). destruct (nth i els None); [eauto|discriminate].
  - intros (e & H). rewrite H. split; [|auto]. destruct (Nat.lt_ge_cases i (length els)); [lia|]. rewrite nth_overflow in H by auto. discriminate.
Qed.

Lemma setFlags_ok es (flags : list bool) : (forall e, In e es -> e < length flags) -> exists flags',
  for_ 0 (length es) (fun p fl => e <- rd es p;; wr fl e true) flags = Ok flags' /\ length flags' = length flags /\
  forall e, nth e flags' false = true <-> nth e flags false = true \/ In e es.
Proof.
  intros B. destruct (for_ok (fun n fl => length fl = length flags /\ forall e, nth e fl false = true <-> nth e flags false = true \/ In e (firstn n es)) 0 (length es)
    (fun p fl => e <- rd es p;; wr fl e true) flags) as (fl & E & L & H); [lia| | |].
  - split; [auto|]. intros e. cbn. tauto.
  - intros p fl Hp (L & H). rewrite (rd_ok _ p 0) by lia. cbn [bind]. assert (I : In (nth p es 0) es) by (apply nth_In; lia). specialize (B _ I). rewrite wr_ok by lia.
    eexists. split; [reflexivity|]. split; [rewrite length_upd; auto|]. intros e. rewrite (firstn_S_snoc es p (nth p es 0)) by (apply nth_error_nth'; lia). rewrite in_app_iff.
    destruct (Nat.eq_dec (nth p es 0) e) as [<-|N].
    + rewrite nth_upd_eq by lia. cbn. tauto.
    + rewrite nth_upd_ne by auto. rewrite H. cbn. tauto.
  - exists fl. rewrite firstn_all in H. auto.
Qed.

Lemma map_nth_seq {A} (l : list A) d : map (fun k => nth k l d) (seq 0 (length l)) = l.
Proof.
  apply nth_error_ext'. intros i. rewrite nth_error_map. destruct (Nat.lt_ge_cases i (length l)) as [H|H].
  - rewrite nth_error_seq by auto. cbn. symmetry. apply nth_error_nth'. auto.
  - rewrite (proj2 (nth_error_None _ _)) by (rewrite seq_length; auto). rewrite (proj2 (nth_error_None _ _)) by auto. reflexivity.
Qed.

Lemma SS_map {A B} (f : A -> B) (R : B -> B -> Prop) l : StronglySorted (fun a b => R (f a) (f b)) l -> StronglySorted R (map f l).
Proof. induction 1 as [|a l S IH F]; cbn; constructor; auto. apply Forall_map. exact F. Qed.

Section Ids.
Variable T : Type.
Variable srt : (nat -> nat) -> list nat -> list nat.
Hypothesis SRT : sorts srt.

(** elements and ids in the order of the elements *)
Definition ordered (els : list (option nat)) (eP iP : list nat) : Prop :=
  Permutation (active els) iP /\ eP = map (elN els) iP /\ StronglySorted le eP.

Lemma initIds_ok (w : raw T) flags : (forall i e, nth i (wEls w) None = Some e -> e < length flags) ->
  exists flags' eP iP, initIds T srt w flags = Ok (flags', (eP, iP)) /\ length flags' = length flags /\ ordered (wEls w) eP iP /\
  forall e, nth e flags' false = true <-> nth e flags false = true \/ exists i, nth i (wEls w) None = Some e.
Proof.
  intros B. unfold initIds. rewrite getAcDu_ok. cbn [bind]. set (ids := active (wEls w)). set (es := map (elN (wEls w)) ids).
  assert (LE : length es = length ids) by (unfold es; apply map_length). rewrite LE, Nat.eqb_refl. cbn [check bind].
  assert (IE : forall e, In e es <-> exists i, nth i (wEls w) None = Some e).
  { intros e. unfold es. rewrite in_map_iff. split.
    - intros (i & <- & H). apply In_active in H as (e & H). exists i. unfold elN. rewrite H. reflexivity.
    - intros (i & H). exists i. split; [unfold elN; rewrite H; reflexivity|]. apply In_active. eauto. }
  destruct (setFlags_ok es flags) as (fl & E & L & F). { intros e H. apply IE in H as (i & H). eauto. }
  rewrite LE in E. rewrite E. cbn [bind]. unfold getSrcPerms. rewrite LE. destruct (SRT (fun a => nth a es 0) (seq 0 (length ids))) as (P & S). set (per := srt (fun a => nth a es 0) (seq 0 (length ids))) in *.
  assert (LP : length per = length ids) by (rewrite <- (Permutation_length P); apply seq_length).
  assert (BP : forall k, k < length ids -> nth k per 0 < length ids).
  { intros k Hk. assert (In (nth k per 0) (seq 0 (length ids))) by (apply (Permutation_in _ (Permutation_sym P)), nth_In; lia). apply in_seq in H. lia. }
  match goal with |- context [for_ 0 _ ?bd ([], [])] => destruct (for_ok (fun n s => s = (map (fun k => nth k es 0) (firstn n per), map (fun k => nth k ids 0) (firstn n per))) 0 (length ids) bd ([], [])) as (s & E2 & H2) end; [lia|reflexivity| |].
  - intros k s Hk ->. rewrite (rd_ok _ k 0) by lia. cbn [bind]. assert (X := BP k ltac:(lia)). rewrite (rd_ok ids _ 0) by lia. cbn [bind]. rewrite (rd_ok es _ 0) by lia. cbn [bind].
    eexists. split; [reflexivity|]. rewrite (firstn_S_snoc per k (nth k per 0)) by (apply nth_error_nth'; lia). rewrite !map_app. reflexivity.
  - rewrite E2. cbn [bind]. rewrite H2. rewrite <- LP, firstn_all. exists fl, (map (fun k => nth k es 0) per), (map (fun k => nth k ids 0) per). split; [reflexivity|]. split; [auto|]. split.
    + split; [|split].
      * fold ids. rewrite <- (map_nth_seq ids 0) at 1. apply Permutation_map. exact P.
      * rewrite map_map. apply map_ext_in. intros k Hk. assert (k < length ids). { apply (Permutation_in _ (Permutation_sym P)) in Hk. apply in_seq in Hk. lia. }
        unfold es. rewrite (nth_indep _ 0 (elN (wEls w) 0)) by (rewrite map_length; auto). apply map_nth.
      * apply SS_map. exact S.
    + intros e. rewrite F, IE. tauto.
Qed.

(** the second permutation of getSrcPerms is the inverse of the first one *)
Lemma sorted_perm_seq n l : Permutation (seq 0 n) l -> StronglySorted le l -> l = seq 0 n.
Proof.
  intros P S. assert (S0 : forall a m, StronglySorted le (seq a m)).
  { intros a m. revert a. induction m; intros a; cbn; constructor; auto. apply Forall_forall. intros x Hx. apply in_seq in Hx. lia. }
  assert (G : forall l1 l2 : list nat, StronglySorted le l1 -> StronglySorted le l2 -> Permutation l1 l2 -> l1 = l2).
  { clear. induction l1 as [|a l1 IH]; intros l2 S1 S2 P; [apply Permutation_nil in P; auto|]. destruct l2 as [|b l2]; [apply Permutation_sym, Permutation_nil in P; auto|].
    inversion S1; subst. inversion S2; subst. rewrite Forall_forall in H2, H4. assert (a = b).
    { assert (In b (a :: l1)) by (apply (Permutation_in _ (Permutation_sym P)); left; auto). assert (In a (b :: l2)) by (apply (Permutation_in _ P); left; auto).
      destruct H as [|H]; auto. destruct H0 as [|H0]; auto. specialize (H2 _ H). specialize (H4 _ H0). lia. }
    subst b. f_equal. apply IH; auto. eapply Permutation_cons_inv; eauto. }
  symmetry. apply G; auto.
Qed.

Lemma perms_inverse els : let '(per, perI) := getSrcPerms srt els in
  Permutation (seq 0 (length els)) per /\ StronglySorted (fun a b => nth a els 0 <= nth b els 0) per /\
  forall k, k < length els -> nth (nth k perI 0) per 0 = k /\ nth (nth k per 0) perI 0 = k.
Proof.
  unfold getSrcPerms. set (n := length els). destruct (SRT (fun a => nth a els 0) (seq 0 n)) as (P & S). set (per := srt (fun a => nth a els 0) (seq 0 n)) in *.
  destruct (SRT (fun a => nth a per 0) (seq 0 n)) as (P2 & S2). set (perI := srt (fun a => nth a per 0) (seq 0 n)) in *. split; [auto|split; [auto|]].
  assert (L : length per = n) by (rewrite <- (Permutation_length P); apply seq_length). assert (L2 : length perI = n) by (rewrite <- (Permutation_length P2); apply seq_length).
  assert (E : map (fun a => nth a per 0) perI = seq 0 n).
  { apply sorted_perm_seq; [|apply (SS_map (fun a => nth a per 0) le); exact S2]. eapply Permutation_trans; [exact P|]. rewrite <- (map_nth_seq per 0) at 1. rewrite L. apply Permutation_map. exact P2. }
  assert (A : forall k, k < n -> nth (nth k perI 0) per 0 = k).
  { intros k Hk. assert (X : nth_error (map (fun a => nth a per 0) perI) k = Some k) by (rewrite E; apply (nth_error_seq 0); auto). rewrite nth_error_map in X. rewrite (nth_error_nth' perI 0) in X by lia. cbn in X. congruence. }
  assert (BP : forall k, k < n -> nth k per 0 < n).
  { intros k Hk. assert (In (nth k per 0) (seq 0 n)) by (apply (Permutation_in _ (Permutation_sym P)), nth_In; lia). apply in_seq in H. lia. }
  assert (BI : forall k, k < n -> nth k perI 0 < n).
  { intros k Hk. assert (In (nth k perI 0) (seq 0 n)) by (apply (Permutation_in _ (Permutation_sym P2)), nth_In; lia). apply in_seq in H. lia. }
  intros k Hk. split; [auto|]. assert (ND : NoDup per) by (eapply Permutation_NoDup; [exact P|apply seq_NoDup]).
  rewrite NoDup_nth in ND. apply (ND _ _); [rewrite L; auto|lia|]. apply A. auto.
Qed.
End Ids.

(** ** Mapping from sparse source elements to sources *)

(** number of entries less than k *)
Definition cnt (l : list nat) (k : nat) : nat := length (filter (fun e => e <? k) l).

Lemma cnt_pos l k p : StronglySorted le l -> p < length l -> (nth p l 0 < k <-> p < cnt l k).
Proof.
  intros S. revert p. unfold cnt. induction S as [|a l S IH F]; intros p Hp; [cbn in Hp; lia|]. cbn [filter]. rewrite Forall_forall in F. destruct (Nat.ltb_spec a k) as [H|H].
  - destruct p as [|p]; cbn [nth length]; [split; lia|]. cbn in Hp. destruct (IH p ltac:(lia)) as [A B]. split; intros X; [apply A in X|apply B]; lia.
  - assert (E : filter (fun e => e <? k) l = []).
    { apply length_zero_iff_nil. destruct (filter (fun e => e <? k) l) as [|b r] eqn:X; auto. exfalso. assert (Y : In b (filter (fun e => e <? k) l)) by (rewrite X; left; auto). apply filter_In in Y as [Y1 Y2]. apply Nat.ltb_lt in Y2. specialize (F _ Y1). lia. }
    rewrite E. cbn [length]. split; [|lia]. intros Hn. exfalso. destruct p as [|p]; cbn [nth] in Hn; [lia|]. cbn in Hp. assert (In (nth p l 0) l) by (apply nth_In; lia). specialize (F _ H0). lia.
Qed.
Lemma cnt_le l k : cnt l k <= length l.
Proof. unfold cnt. induction l as [|a l IH]; cbn [filter length]; [lia|]. destruct (a <? k); cbn [length]; lia. Qed.
Lemma cnt_0 l : cnt l 0 = 0.
Proof. unfold cnt. induction l as [|a l IH]; cbn; auto. Qed.
Lemma cnt_mono l k k' : k <= k' -> cnt l k <= cnt l k'.
Proof. intros H. unfold cnt. induction l as [|a l IH]; cbn [filter length]; [lia|]. destruct (Nat.ltb_spec a k), (Nat.ltb_spec a k'); cbn [length]; lia. Qed.
Lemma cnt_skip l k k' : k <= k' -> (forall e, In e l -> e < k \/ k' <= e) -> cnt l k' = cnt l k.
Proof.
  intros Hk H. unfold cnt. f_equal. apply filter_ext_in. intros e He. specialize (H e He). destruct (Nat.ltb_spec e k'), (Nat.ltb_spec e k); auto; lia.
Qed.
Lemma cnt_all l k : (forall e, In e l -> e < k) -> cnt l k = length l.
Proof. intros H. unfold cnt. induction l as [|a l IH]; auto. cbn [filter length]. rewrite (proj2 (Nat.ltb_lt a k)) by (apply H; left; auto). cbn [length]. rewrite IH; auto. intros; apply H; right; auto. Qed.

Lemma advance el l cr : StronglySorted le l -> forall n p (pt : list nat), p + n = length l -> cnt l el <= p <= cnt l (S el) -> cr < length pt -> nth cr pt 0 = p ->
  exists pt', forb_n n p (fun p pt =>
          y <- rd l p;;
          _ <- check (el <=? y);;
          if y =? el then x <- rd pt cr;; pt <- wr pt cr (x + 1);; Ok (pt, false) else Ok (pt, true)) pt = Ok pt' /\
    length pt' = length pt /\ nth cr pt' 0 = cnt l (S el) /\ forall c, c <> cr -> nth c pt' 0 = nth c pt 0.
Proof.
  intros S. induction n as [|n IH]; intros p pt Hn Hp Lc Pc; cbn [forb_n].
  - exists pt. assert (X := cnt_le l (Datatypes.S el)). split; [auto|]. split; [auto|]. split; [lia|auto].
  - rewrite (rd_ok _ p 0) by lia. cbn [bind]. assert (X := cnt_pos l el p S ltac:(lia)). assert (Y := cnt_pos l (Datatypes.S el) p S ltac:(lia)).
    rewrite (proj2 (Nat.leb_le el (nth p l 0))) by lia. cbn [check bind]. destruct (Nat.eqb_spec (nth p l 0) el) as [E|E].
    + rewrite (rd_ok _ cr 0) by auto. cbn [bind]. rewrite wr_ok by auto. cbn [bind].
      destruct (IH (Datatypes.S p) (upd pt cr (nth cr pt 0 + 1)) ltac:(lia) ltac:(lia) ltac:(rewrite length_upd; auto)) as (pt' & E1 & L1 & P1 & O1); [rewrite nth_upd_eq by auto; lia|].
      exists pt'. split; [exact E1|]. rewrite length_upd in L1. split; [auto|]. split; [auto|]. intros c Hc. rewrite O1 by auto. apply nth_upd_ne. auto.
    + cbn [bind]. exists pt. split; [auto|]. split; [auto|]. split; [|auto]. lia.
Qed.

(** the source elements in ascending order *)
Definition srcEls (src : list bool) (nEl : nat) : list nat := filter (fun e => nth e src false) (seq 0 nEl).

Lemma fill_ok {A} (v : A) d n (o : list A) : n <= length o -> exists o', for_ 0 n (fun cr o => wr o cr v) o = Ok o' /\ length o' = length o /\ forall c, c < n -> nth c o' d = v.
Proof.
  intros H. destruct (for_ok (fun k o' => length o' = length o /\ forall c, c < k -> nth c o' d = v) 0 n (fun cr o => wr o cr v) o) as (o' & E & L & F); [lia| | |eauto].
  - split; [auto|]. intros; lia.
  - intros k o' Hk (L & F). rewrite wr_ok by lia. eexists. split; [reflexivity|]. split; [rewrite length_upd; auto|]. intros c Hc. destruct (Nat.eq_dec k c) as [<-|N]; [apply nth_upd_eq; lia|]. rewrite nth_upd_ne by auto. apply F. lia.
Qed.

Lemma flat_inj n k c k' c' : c < n -> c' < n -> k * n + c = k' * n + c' -> k = k' /\ c = c'.
Proof. intros H H' E. assert (k = k') by nia. subst. lia. Qed.

Section Map.
Variable nCr : nat.
Variable mem : nat -> list nat.
Hypothesis MEM : allocates mem.

Lemma elSpPs_ok nEl src lim srcElP : nEl <= length src -> nEl <= length lim -> (forall e, e < nEl -> nth e src false = true -> nth e lim false = false) ->
  length srcElP = nCr -> (forall l, In l srcElP -> StronglySorted le l /\ forall e, In e l -> e < nEl /\ nth e src false = true) ->
  exists o, elSpPs nCr mem nEl src lim srcElP = Ok o /\ length o = nCr * (length (srcEls src nEl) + 1) /\
    (forall k cr, k < length (srcEls src nEl) -> cr < nCr -> nth (k * nCr + cr) o 0 = cnt (nth cr srcElP []) (nth k (srcEls src nEl) 0)) /\
    (forall cr, cr < nCr -> nth (length (srcEls src nEl) * nCr + cr) o 0 = length (nth cr srcElP [])).
Proof.
  intros LS LL NL LP HP. set (n := length (srcEls src nEl)). unfold elSpPs.
  assert (SQ : forall k, srcEls src (S k) = srcEls src k ++ (if nth k src false then [k] else [])) by (intros k; unfold srcEls; rewrite seq_snoc, filter_app; reflexivity).
  match goal with |- context [for_ 0 nEl ?bd 0] => destruct (for_ok (fun k c => c = length (srcEls src k)) 0 nEl bd 0) as (c & E & ->) end; [lia|reflexivity| |].
  { intros k c Hk ->. rewrite (rd_ok _ k false) by lia. cbn [bind]. rewrite SQ, app_length. destruct (nth k src false) eqn:Sk.
    - rewrite (rd_ok _ k false) by lia. cbn [bind]. rewrite NL by (auto; lia). cbn. eauto.
    - eexists. split; [reflexivity|]. cbn. lia. }
  rewrite E. cbn [bind]. clear E. fold n.
  destruct (fill_ok 0 0 nCr (mem (nCr * (n + 1)))) as (o & E & Lo & _); [rewrite MEM; nia|]. rewrite E. cbn [bind]. clear E. rewrite MEM in Lo.
  destruct (fill_ok 0 0 nCr (mem nCr)) as (pt & E & Lpt & Fpt); [rewrite MEM; lia|]. rewrite E. cbn [bind]. clear E. rewrite MEM in Lpt.
  set (L := fun cr => nth cr srcElP []).
  assert (HL : forall cr, cr < nCr -> StronglySorted le (L cr) /\ forall e, In e (L cr) -> e < nEl /\ nth e src false = true) by (intros cr H; apply HP, nth_In; lia).
  set (INV := fun k (s : nat * list nat * list nat) => let '(sp, pt, o) := s in sp = length (srcEls src k) /\ length pt = nCr /\ length o = nCr * (n + 1) /\
    (forall c, c < nCr -> nth c pt 0 = cnt (L c) k) /\ (forall q c, q < sp -> c < nCr -> nth (q * nCr + c) o 0 = cnt (L c) (nth q (srcEls src k) 0))).
  match goal with |- context [for_ 0 nEl ?bd (0, pt, o)] => destruct (for_ok INV 0 nEl bd (0, pt, o)) as (((sp & pt1) & o1) & E & I) end; [lia| | |].
  { split; [reflexivity|]. split; [auto|]. split; [auto|]. split; [intros c Hc; rewrite Fpt, cnt_0 by auto; reflexivity|intros; lia]. }
  { intros k ((sp & pt1) & o1) Hk (I1 & I2 & I3 & I4 & I5). rewrite (rd_ok _ k false) by lia. cbn [bind]. destruct (nth k src false) eqn:Sk.
    - assert (SN : sp < n).
      { unfold n. replace nEl with (k + S (nEl - k - 1)) by lia. rewrite I1. unfold srcEls. rewrite seq_app, filter_app, app_length. cbn [seq filter]. rewrite Nat.add_0_l, Sk. cbn. lia. }
      set (J := fun cr (s : list nat * list nat) => let '(p, w) := s in length p = nCr /\ length w = nCr * (n + 1) /\ (forall c, c < nCr -> nth c p 0 = if c <? cr then cnt (L c) (S k) else cnt (L c) k) /\
         (forall q c, q < sp -> c < nCr -> nth (q * nCr + c) w 0 = cnt (L c) (nth q (srcEls src k) 0)) /\ (forall c, c < cr -> nth (sp * nCr + c) w 0 = cnt (L c) k)).
      match goal with |- context [for_ 0 nCr ?bd (pt1, o1)] => destruct (for_ok J 0 nCr bd (pt1, o1)) as ((pt2 & o2) & E & (J1 & J2 & J3 & J4 & J5)) end; [lia| | |].
      { split; [auto|]. split; [auto|]. split; [intros; cbn; auto|]. split; [auto|intros; lia]. }
      { intros cr (p & w) Hcr (J1 & J2 & J3 & J4 & J5). rewrite (rd_ok _ cr 0) by lia. cbn [bind]. assert (Bi : sp * nCr + cr < nCr * (n + 1)) by nia. rewrite wr_ok by lia. cbn [bind].
        rewrite (rd_ok _ cr []) by lia. cbn [bind]. fold (L cr). unfold forb.
        assert (Px : nth cr p 0 = cnt (L cr) k) by (rewrite J3, Nat.ltb_irrefl by lia; auto).
        destruct (advance k (L cr) cr (proj1 (HL cr ltac:(lia))) (length (L cr) - nth cr p 0) (nth cr p 0) p) as (p' & E & L1 & P1 & O1); try lia.
        { assert (X := cnt_le (L cr) k). lia. } { assert (X := cnt_mono (L cr) k (S k)). lia. }
        rewrite E. cbn [bind]. eexists. split; [reflexivity|]. split; [lia|]. split; [rewrite length_upd; auto|]. split; [|split].
        - intros c Hc. destruct (Nat.eq_dec c cr) as [->|N]; [rewrite P1; destruct (Nat.ltb_spec cr (S cr)); auto; lia|]. rewrite O1, J3 by auto. destruct (Nat.ltb_spec c cr), (Nat.ltb_spec c (S cr)); auto; lia.
        - intros q c Hq Hc. rewrite nth_upd_ne by (intros X; apply flat_inj in X; lia). auto.
        - intros c Hc. destruct (Nat.eq_dec c cr) as [->|N]; [rewrite nth_upd_eq by lia; auto|]. rewrite nth_upd_ne by lia. apply J5. lia. }
      rewrite E. cbn [bind]. eexists. split; [reflexivity|]. unfold INV. rewrite SQ, Sk, app_length. split; [cbn; lia|]. split; [auto|]. split; [auto|]. split.
      + intros c Hc. rewrite J3 by auto. rewrite (proj2 (Nat.ltb_lt c nCr)) by auto. reflexivity.
      + intros q c Hq Hc. destruct (Nat.eq_dec q sp) as [->|N]; [rewrite J5 by auto; rewrite I1, app_nth2, Nat.sub_diag by lia; reflexivity|]. rewrite app_nth1 by lia. apply J4; lia.
    - eexists. split; [reflexivity|]. unfold INV. rewrite SQ, Sk, app_nil_r. split; [auto|]. split; [auto|]. split; [auto|]. split; [|auto].
      intros c Hc. rewrite I4 by auto. symmetry. apply cnt_skip; [lia|]. intros e He. destruct (Nat.eq_dec e k) as [->|]; [|lia]. apply HL in He; auto. destruct He. congruence. }
  rewrite E. cbn [bind]. clear E. destruct I as (I1 & I2 & I3 & I4 & I5).
  match goal with |- context [for_ 0 nCr ?bd o1] => destruct (for_ok (fun cr o => length o = nCr * (n + 1) /\ (forall q c, q < n -> c < nCr -> nth (q * nCr + c) o 0 = cnt (L c) (nth q (srcEls src nEl) 0)) /\
     (forall c, c < cr -> nth (n * nCr + c) o 0 = length (L c))) 0 nCr bd o1) as (o2 & E & Q1 & Q2 & Q3) end; [lia| | |].
  { split; [auto|]. split; [intros q c Hq Hc; apply I5; [rewrite I1; auto|auto]|intros; lia]. }
  { intros cr w Hcr (Q1 & Q2 & Q3). rewrite (rd_ok _ cr 0) by lia. cbn [bind]. assert (Bi : n * nCr + cr < nCr * (n + 1)) by nia. rewrite wr_ok by lia. eexists. split; [reflexivity|].
    split; [rewrite length_upd; auto|]. split.
    - intros q c Hq Hc. rewrite nth_upd_ne by (intros X; apply flat_inj in X; lia). auto.
    - intros c Hc. destruct (Nat.eq_dec c cr) as [->|N]; [|rewrite nth_upd_ne by lia; apply Q3; lia]. rewrite nth_upd_eq by lia. rewrite I4 by lia. apply cnt_all. intros e He. apply HL in He; [apply He|lia]. }
  exists o2. split; [exact E|]. split; [auto|]. split; [exact Q2|exact Q3].
Qed.

End Map.

Lemma SS_filter {A} (R : A -> A -> Prop) f l : StronglySorted R l -> StronglySorted R (filter f l).
Proof.
  induction 1 as [|a l S IH F]; cbn; [constructor|]. destruct (f a); auto. constructor; auto. rewrite Forall_forall in *. intros x Hx. apply filter_In in Hx. apply F. tauto.
Qed.
Lemma SS_seq a n : StronglySorted lt (seq a n).
Proof. revert a. induction n; intros a; cbn; constructor; auto. apply Forall_forall. intros x Hx. apply in_seq in Hx. lia. Qed.
Lemma SS_nth l i j : StronglySorted lt l -> i < j < length l -> nth i l 0 < nth j l 0.
Proof.
  intros S. revert i j. induction S as [|a l S IH F]; intros i j H; [cbn in H; lia|]. rewrite Forall_forall in F. destruct j as [|j]; [lia|]. destruct i as [|i]; cbn [nth]; cbn in H.
  - apply F, nth_In. lia.
  - apply IH. lia.
Qed.
Lemma srcEls_sorted src nEl : StronglySorted lt (srcEls src nEl).
Proof. apply SS_filter, SS_seq. Qed.
Lemma In_srcEls src nEl e : In e (srcEls src nEl) <-> e < nEl /\ nth e src false = true.
Proof. unfold srcEls. rewrite filter_In, in_seq. split; intros (? & ?); split; auto; lia. Qed.

(** Consecutive source elements: no entries of l in between. *)
Lemma cnt_next src nEl l k : (forall e, In e l -> e < nEl /\ nth e src false = true) -> S k < length (srcEls src nEl) ->
  cnt l (nth (S k) (srcEls src nEl) 0) = cnt l (S (nth k (srcEls src nEl) 0)).
Proof.
  intros H Hk. assert (SS := srcEls_sorted src nEl). assert (G := SS_nth _ k (S k) SS ltac:(lia)). apply cnt_skip; [lia|].
  intros e He. apply H, In_srcEls in He. apply (In_nth _ _ 0) in He as (j & Hj & <-). destruct (lt_eq_lt_dec j (S k)) as [[L|E]|L].
  - destruct (Nat.eq_dec j k) as [->|]; [lia|]. assert (X := SS_nth _ j k SS ltac:(lia)). lia.
  - rewrite E. lia.
  - assert (X := SS_nth _ (S k) j SS ltac:(lia)). lia.
Qed.
Lemma cnt_last src nEl l : (forall e, In e l -> e < nEl /\ nth e src false = true) -> 0 < length (srcEls src nEl) ->
  cnt l (S (nth (length (srcEls src nEl) - 1) (srcEls src nEl) 0)) = length l.
Proof.
  intros H Hk. assert (SS := srcEls_sorted src nEl). apply cnt_all. intros e He. apply H, In_srcEls in He. apply (In_nth _ _ 0) in He as (j & Hj & <-).
  destruct (Nat.eq_dec j (length (srcEls src nEl) - 1)) as [->|]; [lia|]. assert (X := SS_nth _ j (length (srcEls src nEl) - 1) SS ltac:(lia)). lia.
Qed.

(** the sources of one element are consecutive *)
Lemma seg_filter (key : nat -> nat) e l : StronglySorted le (map key l) ->
  firstn (cnt (map key l) (S e) - cnt (map key l) e) (skipn (cnt (map key l) e) l) = filter (fun i => key i =? e) l.
Proof.
  unfold cnt. induction l as [|a l IH]; intros S; [reflexivity|]. cbn [map] in *. inversion S as [|? ? S' F]; subst. specialize (IH S'). rewrite Forall_forall in F. cbn [filter].
  destruct (Nat.ltb_spec (key a) e) as [L|L], (Nat.ltb_spec (key a) (Datatypes.S e)) as [L'|L'], (Nat.eqb_spec (key a) e) as [E|E]; try lia; cbn [length].
  - cbn [Nat.sub skipn]. exact IH.
  - assert (Z : filter (fun e0 => e0 <? e) (map key l) = []).
    { apply length_zero_iff_nil. destruct (filter (fun e0 => e0 <? e) (map key l)) as [|b r] eqn:X; auto. exfalso. assert (Y : In b (filter (fun e0 => e0 <? e) (map key l))) by (rewrite X; left; auto). apply filter_In in Y as [Y1 Y2]. apply Nat.ltb_lt in Y2. specialize (F _ Y1). lia. }
    rewrite Z in *. cbn [length skipn Nat.sub] in *. cbn [firstn]. f_equal. rewrite Nat.sub_0_r in IH. exact IH.
  - assert (Z : forall k, k <= key a -> filter (fun e0 => e0 <? k) (map key l) = []).
    { intros k Hk. apply length_zero_iff_nil. destruct (filter (fun e0 => e0 <? k) (map key l)) as [|b r] eqn:X; auto. exfalso. assert (Y : In b (filter (fun e0 => e0 <? k) (map key l))) by (rewrite X; left; auto). apply filter_In in Y as [Y1 Y2]. apply Nat.ltb_lt in Y2. specialize (F _ Y1). lia. }
    rewrite !Z by lia. cbn [length Nat.sub firstn]. rewrite !Z in IH by lia. cbn in IH. exact IH.
Qed.

Lemma Permutation_filter {A} (f : A -> bool) l l' : Permutation l l' -> Permutation (filter f l) (filter f l').
Proof.
  induction 1 as [|x l l' P IH|x y l|l l' l'' P1 IH1 P2 IH2]; cbn; auto.
  - destruct (f x); auto.
  - destruct (f x), (f y); auto. constructor.
  - eapply Permutation_trans; eauto.
Qed.

Lemma filter_filter {A} (f g : A -> bool) l : filter f (filter g l) = filter (fun x => g x && f x) l.
Proof. induction l as [|a l IH]; cbn; auto. destruct (g a); cbn; [destruct (f a); rewrite IH; auto|auto]. Qed.

Lemma ordered_in els eP iP e : ordered els eP iP -> Permutation (filter (fun i => elN els i =? e) iP) (pointsIn els e).
Proof.
  intros (P & _ & _). eapply Permutation_trans; [apply Permutation_filter, Permutation_sym, P|]. unfold active, pointsIn. rewrite filter_filter. 
  erewrite filter_ext; [apply Permutation_refl|]. intros i. cbv beta. unfold elN, isEl. destruct (nth i els None); reflexivity.
Qed.

(** ** Data of the sources *)
Section Data.
Variable T : Type.
Variable d : T.
Variable memN : nat -> list nat.
Variable memT : nat -> list T.
Hypothesis MEM : allocates memN.
Hypothesis MEMT : allocates memT.

(** Specification: samples of point i *)
Definition series (w : raw T) (i : nat) : list T := firstn (nth (S i) (wPtr w) 0 - nth i (wPtr w) 0) (skipn (nth i (wPtr w) 0) (wTs w)).
(** the arrays of the file fit together *)
Definition wfRaw (w : raw T) : Prop :=
  let n := length (wEls w) in length (wTime w) = n /\ length (wDt w) = n /\ length (wSca w) = n /\ length (wPtr w) = n + 1 /\
  forall i, i < n -> nth i (wPtr w) 0 <= nth (S i) (wPtr w) 0 <= length (wTs w).

Lemma len_series w i : wfRaw w -> i < length (wEls w) -> length (series w i) = nth (S i) (wPtr w) 0 - nth i (wPtr w) 0.
Proof. intros (_ & _ & _ & _ & H) Hi. specialize (H i Hi). unfold series. rewrite firstn_length, skipn_length. lia. Qed.

Lemma for_n_ext' {S} (b b' : nat -> S -> res S) : (forall k s, b k s = b' k s) -> forall n lo s, for_n n lo b s = for_n n lo b' s.
Proof. intros H. induction n as [|n IH]; intros lo s; cbn [for_n]; [reflexivity|]. rewrite H. destruct (b' lo s); cbn [bind]; auto. Qed.
Lemma for_ext' {S} lo hi (b b' : nat -> S -> res S) s : (forall k s, b k s = b' k s) -> for_ lo hi b s = for_ lo hi b' s.
Proof. intros H. apply for_n_ext'. exact H. Qed.

Lemma collect {A B} (f : A -> B) (l : list A) (g : nat -> res B) : (forall p a, nth_error l p = Some a -> g p = Ok (f a)) ->
  for_ 0 (length l) (fun p o => b <- g p;; Ok (o ++ [b])) [] = Ok (map f l).
Proof.
  intros H. destruct (for_ok (fun n o => o = map f (firstn n l)) 0 (length l) (fun p o => b <- g p;; Ok (o ++ [b])) []) as (o & E & ->); [lia|reflexivity| |rewrite E, firstn_all; reflexivity].
  intros k o Hk ->. destruct (nth_error l k) as [a|] eqn:Ea; [|apply nth_error_None in Ea; lia]. rewrite (H k a Ea). cbn [bind]. eexists. split; [reflexivity|]. rewrite (firstn_S_snoc l k a Ea), map_app. reflexivity.
Qed.

(** partial sums of the numbers of samples *)
Definition offs (w : raw T) (iP : list nat) (p : nat) : nat := length (concat (map (series w) (firstn p iP))).
Lemma offs_S w iP p i : nth_error iP p = Some i -> offs w iP (S p) = offs w iP p + length (series w i).
Proof. intros H. unfold offs. rewrite (firstn_S_snoc _ _ _ H), map_app, concat_app, app_length. cbn. rewrite app_nil_r. reflexivity. Qed.

(** copying of the series of one point *)
Lemma copy_ok (rawTs : list T) offRaw : forall n off (ts : list T), offRaw + n <= length rawTs -> off + n <= length ts ->
  exists ts', for_ 0 n (fun sa ts => v <- rd rawTs (offRaw + sa);; wr ts (off + sa) v) ts = Ok ts' /\
    ts' = firstn off ts ++ firstn n (skipn offRaw rawTs) ++ skipn (off + n) ts.
Proof.
  intros n off ts H1 H2.
  destruct (for_ok (fun k t => t = firstn off ts ++ firstn k (skipn offRaw rawTs) ++ skipn (off + k) ts) 0 n (fun sa ts => v <- rd rawTs (offRaw + sa);; wr ts (off + sa) v) ts) as (t & E & H); [lia| | |eauto].
  - cbn [firstn app]. rewrite Nat.add_0_r. symmetry. apply firstn_skipn.
  - intros k t Hk ->. rewrite (rd_ok _ _ d) by lia. cbn [bind].
    assert (Lk : length (firstn k (skipn offRaw rawTs)) = k) by (rewrite firstn_length, skipn_length; lia).
    assert (Lo : length (firstn off ts) = off) by (rewrite firstn_length; lia).
    rewrite wr_ok by (rewrite !app_length, Lk, Lo, skipn_length; lia). eexists. split; [reflexivity|].
    destruct (skipn (off + k) ts) as [|x r] eqn:Es. { assert (X : length (skipn (off + k) ts) = 0) by (rewrite Es; auto). rewrite skipn_length in X. lia. }
    assert (Er : skipn (off + S k) ts = r). { replace (off + S k) with (S (off + k)) by lia. clear - Es. revert Es. generalize (off + k). intros m. revert ts. induction m as [|m IH]; intros [|y ts] Es; cbn in *; try discriminate; [congruence|apply IH; auto]. }
    rewrite Er. rewrite app_assoc. rewrite upd_app_at by (rewrite app_length; lia). rewrite (firstn_S_snoc _ k (nth (offRaw + k) rawTs d)).
    2:{ rewrite (nth_error_nth' _ d) by (rewrite skipn_length; lia). f_equal. clear. revert offRaw. induction rawTs as [|a l IH]; intros o; [destruct o, k; reflexivity|]. destruct o; [reflexivity|]. cbn. apply IH. }
    rewrite <- !app_assoc. reflexivity.
Qed.

Lemma initTsData_ok (w : raw T) eP iP bas : wfRaw w -> length eP = length iP -> (forall i, In i iP -> i < length (wEls w)) ->
  exists p, initTsData T memN memT w eP iP bas = Ok p /\ pEl p = eP /\ pTime p = map (fun i => nth i (wTime w) d) iP /\ pDt p = map (fun i => nth i (wDt w) d) iP /\
    pSca p = map (fun i => nth i (wSca w) []) iP /\ pBas p = bas /\ length (pPtr p) = length iP + 1 /\ (forall k, k <= length iP -> nth k (pPtr p) 0 = offs w iP k) /\
    pTs p = concat (map (series w) iP).
Proof.
  intros WF LE BI. assert (WF' := WF). destruct WF' as (W1 & W2 & W3 & W4 & W5). unfold initTsData.
  assert (NB : forall p i, nth_error iP p = Some i -> i < length (wEls w)) by (intros p i H; apply BI; eapply nth_error_In; eauto).
  rewrite <- LE. rewrite (collect (fun e => e) eP (fun p => rd eP p)) by (intros p a H; apply rd_some; auto). rewrite map_id. cbn [bind]. rewrite LE.
  rewrite W3, W1, W2, W4, !Nat.eqb_refl. cbn [check bind].
  match goal with |- context [for_ 0 _ ?bd ([], [])] => destruct (for_ok (fun n s => s = (map (fun i => nth i (wTime w) d) (firstn n iP), map (fun i => nth i (wDt w) d) (firstn n iP))) 0 (length iP) bd ([], [])) as (s & E & ->) end; [lia|reflexivity| |].
  { intros k s Hk ->. destruct (nth_error iP k) as [i|] eqn:Ei; [|apply nth_error_None in Ei; lia]. assert (X := NB _ _ Ei). rewrite (rd_some _ _ _ Ei). cbn [bind]. rewrite (rd_ok _ i d) by lia. cbn [bind]. rewrite (rd_ok _ i d) by lia. cbn [bind].
    eexists. split; [reflexivity|]. rewrite (firstn_S_snoc _ _ _ Ei), !map_app. reflexivity. }
  rewrite E. cbn [bind]. clear E.
  match goal with |- context [for_ 0 (length iP) ?bd []] => assert (E : for_ 0 (length iP) bd [] = Ok (map (fun i => nth i (wSca w) []) iP)) end.
  { transitivity (for_ 0 (length iP) (fun p o => b <- (i <- rd iP p;; rd (wSca w) i);; Ok (o ++ [b])) []).
    - apply for_ext'. intros p o. destruct (rd iP p) as [i|]; cbn [bind]; [|reflexivity]. destruct (rd (wSca w) i); reflexivity.
    - apply (collect (fun i => nth i (wSca w) [])). intros p i Hi. rewrite (rd_some _ _ _ Hi). cbn [bind]. apply rd_ok. rewrite W3. eauto. }
  rewrite E. cbn [bind]. clear E. rewrite firstn_all. rewrite wr_ok by (rewrite MEM; lia). cbn [bind].
  match goal with |- context [for_ 0 (length iP) ?bd (upd _ _ _)] => destruct (for_ok (fun n o => length o = length iP + 1 /\ forall k, k <= n -> nth k o 0 = offs w iP k) 0 (length iP) bd (upd (memN (length iP + 1)) 0 0)) as (ptr & E & P1 & P2) end; [lia| | |].
  { rewrite length_upd, MEM. split; [auto|]. intros k Hk. replace k with 0 by lia. rewrite nth_upd_eq by (rewrite MEM; lia). reflexivity. }
  { intros k o Hk (P1 & P2). destruct (nth_error iP k) as [i|] eqn:Ei; [|apply nth_error_None in Ei; lia]. assert (X := NB _ _ Ei). assert (Y := W5 i X). rewrite (rd_some _ _ _ Ei). cbn [bind].
    rewrite (rd_ok _ k 0) by lia. cbn [bind]. rewrite wr_ok by lia. cbn [bind]. rewrite (rd_ok _ (i + 1) 0) by lia. cbn [bind]. rewrite (rd_ok _ i 0) by lia. cbn [bind].
    rewrite Nat.add_1_r. destruct (Nat.ltb_spec (nth (S i) (wPtr w) 0) (nth i (wPtr w) 0)); [lia|]. rewrite (rd_ok _ (k + 1) 0) by (rewrite length_upd; lia). cbn [bind]. rewrite wr_ok by (rewrite length_upd; lia).
    eexists. split; [reflexivity|]. rewrite !length_upd. split; [auto|]. intros q Hq. rewrite nth_upd_eq by lia. destruct (Nat.eq_dec q (k + 1)) as [->|N].
    - rewrite nth_upd_eq by (rewrite length_upd; lia). rewrite P2 by lia. rewrite Nat.add_1_r, (offs_S w iP k i Ei), len_series by auto. reflexivity.
    - rewrite !nth_upd_ne by auto. apply P2. lia. }
  rewrite E. cbn [bind]. clear E. rewrite (rd_ok _ (length iP) 0) by lia. cbn [bind]. rewrite P2 by lia.
  match goal with |- context [for_ 0 (length iP) ?bd (memT ?n)] => destruct (for_ok (fun k ts => length ts = offs w iP (length iP) /\ firstn (offs w iP k) ts = concat (map (series w) (firstn k iP))) 0 (length iP) bd (memT n)) as (ts & E & T1 & T2) end; [lia| | |].
  { rewrite MEMT. split; auto. }
  { intros k ts Hk (T1 & T2). destruct (nth_error iP k) as [i|] eqn:Ei; [|apply nth_error_None in Ei; lia]. assert (X := NB _ _ Ei). assert (Y := W5 i X). rewrite (rd_some _ _ _ Ei). cbn [bind].
    rewrite (rd_ok _ k 0) by lia. cbn [bind]. rewrite (rd_ok _ i 0) by lia. cbn [bind]. rewrite (rd_ok _ (k + 1) 0) by lia. cbn [bind]. rewrite !P2 by lia.
    assert (O := offs_S w iP k i Ei). rewrite len_series in O by auto. assert (LS := len_series w i WF X). 
    assert (OM : offs w iP (S k) <= offs w iP (length iP)).
    { unfold offs at 2. rewrite <- (firstn_skipn (S k) (firstn (length iP) iP)). rewrite firstn_firstn, Nat.min_l by lia. rewrite map_app, concat_app, app_length. unfold offs. lia. }
    replace (offs w iP (k + 1) - offs w iP k) with (nth (S i) (wPtr w) 0 - nth i (wPtr w) 0) by (rewrite Nat.add_1_r; lia).
    destruct (copy_ok (wTs w) (nth i (wPtr w) 0) (nth (S i) (wPtr w) 0 - nth i (wPtr w) 0) (offs w iP k) ts) as (ts' & E & H); [lia|lia|]. exists ts'. split; [exact E|]. fold (series w i) in H.
    assert (Lf : length (firstn (offs w iP k) ts) = offs w iP k) by (rewrite firstn_length; lia).
    split; [rewrite H, !app_length, Lf, LS, skipn_length; lia|]. rewrite H, app_assoc, firstn_app. rewrite app_length, Lf, LS. rewrite <- O, Nat.sub_diag. rewrite firstn_O, app_nil_r.
    rewrite firstn_all2 by (rewrite app_length, Lf, LS; lia). rewrite T2. rewrite (firstn_S_snoc _ _ _ Ei), map_app, concat_app. cbn. rewrite app_nil_r. reflexivity. }
  rewrite E. cbn [bind]. rewrite <- T1, firstn_all, firstn_all in T2. eexists. split; [reflexivity|]. cbn. repeat split; auto.
Qed.

Lemma slice_ok w iP p i : nth_error iP p = Some i -> slice T (concat (map (series w) iP)) (offs w iP p) (offs w iP (S p) - offs w iP p) = Ok (series w i).
Proof.
  intros H. rewrite (offs_S w iP p i H). assert (E : iP = firstn p iP ++ i :: skipn (S p) iP).
  { apply nth_error_split in H as (l1 & l2 & -> & <-). rewrite firstn_app, Nat.sub_diag, firstn_all. cbn [firstn]. rewrite app_nil_r. f_equal. f_equal.
    rewrite skipn_app, skipn_all2 by lia. replace (S (length l1) - length l1) with 1 by lia. reflexivity. }
  assert (C : concat (map (series w) iP) = concat (map (series w) (firstn p iP)) ++ series w i ++ concat (map (series w) (skipn (S p) iP))).
  { rewrite E at 1. rewrite map_app, concat_app. reflexivity. }
  unfold slice. replace (offs w iP p + length (series w i) - offs w iP p) with (length (series w i)) by lia. rewrite C. unfold offs. rewrite !app_length.
  destruct (Nat.leb_spec (length (concat (map (series w) (firstn p iP))) + length (series w i)) (length (concat (map (series w) (firstn p iP))) + (length (series w i) + length (concat (map (series w) (skipn (S p) iP)))))); [|lia].
  rewrite skipn_app, skipn_all, Nat.sub_diag. cbn [skipn app]. rewrite firstn_app, firstn_all, Nat.sub_diag. cbn [firstn]. rewrite app_nil_r. reflexivity.
Qed.
End Data.
