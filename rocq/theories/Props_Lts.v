(** Properties of the local time stepping relations and of sparse types of domains: C24, C47, C48. *)
From Coq Require Import QArith.
From Verif Require Import Util Sparse SharedProofs Distr Props_Distr Layout Props_Layout Lts.

Open Scope nat_scope.

(** * Specification *)

(** Element [el] belongs to time group [tg]: the elements are sorted by inner elements of the groups, followed by the send
    elements of the groups (C23). *)
Definition inTg (nIn nSe : list nat) (el tg : nat) : Prop :=
  (tg < length nIn /\ list_sum (firstn tg nIn) <= el < list_sum (firstn (S tg) nIn)) \/
  (tg < length nSe /\ list_sum nIn + list_sum (firstn tg nSe) <= el < list_sum nIn + list_sum (firstn (S tg) nSe)).

(** Face [fa] of element [el] is a face of a channel to time group [tg]. *)
Definition commTg (chs : list chan) (sendFa sendEl : list nat) (el fa tg : nat) : Prop :=
  exists ch c i, nth_error chs ch = Some c /\ i < cN c /\ cTgAd c = tg /\
    nth_error sendEl (faceNo chs ch i) = Some el /\ nth_error sendFa (faceNo chs ch i) = Some fa.

(** A mesh part: [xChs] are the communication channels of the rank. *)
Record part := mkPart { xEls : nat; xElFas : nat; xElFaEl : list (option nat); xIn : list nat; xSe : list nat;
                        xChs : list chan; xSendFa : list nat; xSendEl : list nat }.

Definition part_ok (x : part) : Prop :=
  xEls x = list_sum (xIn x) + list_sum (xSe x) /\
  length (xElFaEl x) = xEls x * xElFas x /\ (forall k ad, nth_error (xElFaEl x) k = Some (Some ad) -> ad < xEls x) /\
  validFaces (xEls x) (xElFas x) (nFaces (xChs x)) (xSendEl x) (xSendFa x).

(** Time group behind a face: of the adjacent element on this rank, of the adjacent element on another rank, or the element's
    own group at the boundary of the domain. *)
Definition tgBehind (x : part) (el fa tg : nat) : Prop :=
  fa < xElFas x /\
  ((exists ad, nth_error (xElFaEl x) (el * xElFas x + fa) = Some (Some ad) /\ inTg (xIn x) (xSe x) ad tg) \/
   nth_error (xElFaEl x) (el * xElFas x + fa) = Some None /\
     (commTg (xChs x) (xSendFa x) (xSendEl x) el fa tg \/
      (forall tg', ~ commTg (xChs x) (xSendFa x) (xSendEl x) el fa tg') /\ inTg (xIn x) (xSe x) el tg)).

Definition masks (fl : ltsFlags) : list N := [fElEq fl; fElLt fl; fElGt fl] ++ fAdEq fl ++ fAdLt fl ++ fAdGt fl.

(** The flags are pairwise different single bits; one per face. *)
Definition flags_ok (fl : ltsFlags) (nElFas : nat) : Prop :=
  nElFas <= length (fAdEq fl) /\ length (fAdLt fl) = length (fAdEq fl) /\ length (fAdGt fl) = length (fAdEq fl) /\
  NoDup (masks fl) /\ forall m, In m (masks fl) -> exists b, m = (2 ^ b)%N.

(** How the mesh reader calls setLtsTypes: null pointers without channels. *)
Definition commOf (x : part) : comm := match xChs x with [] => None | _ => Some (encode (xChs x), xSendFa x, xSendEl x) end.

Definition runLts (fl : ltsFlags) (x : part) (sp : list N) : res (list N) :=
  setLtsTypes fl (xEls x) (xElFas x) (xElFaEl x) (xIn x) (xSe x) (commOf x) sp.

(** * Proofs *)

Lemma sum_mono l : forall a b, a <= b -> list_sum (firstn a l) <= list_sum (firstn b l).
Proof.
  induction l as [|x l IH]; intros [|a] [|b] H; cbn [firstn]; rewrite ?list_sum_cons; try (change (list_sum []) with 0); try lia.
  all: try (specialize (IH a b); lia).
Qed.

Lemma findTg_ok sizes el : forall tg first, first <= el ->
  (exists k, k < length sizes /\ first + list_sum (firstn k sizes) <= el < first + list_sum (firstn (S k) sizes) /\ fst (findTg tg first sizes el) = Some (tg + k)) \/
  (first + list_sum sizes <= el /\ findTg tg first sizes el = (None, first + list_sum sizes)).
Proof.
  induction sizes as [|n sizes IH]; intros tg first H; cbn [findTg].
  - right. cbn. rewrite Nat.add_0_r. auto.
  - destruct (lt_dec el (first + n)) as [L|L].
    + left. exists 0. replace ((first <=? el) && (el <? first + n)) with true by lia. cbn [firstn length fst]. rewrite list_sum_cons. change (list_sum []) with 0. split; [lia|]. split; [lia|]. f_equal. lia.
    + replace ((first <=? el) && (el <? first + n)) with false by lia. destruct (IH (S tg) (first + n) ltac:(lia)) as [(k & K1 & K2 & K3)|(K1 & K2)].
      * left. exists (S k). change (firstn (S k) (n :: sizes)) with (n :: firstn k sizes). change (firstn (S (S k)) (n :: sizes)) with (n :: firstn (S k) sizes).
        rewrite !list_sum_cons. cbn [length]. split; [lia|]. split; [lia|]. rewrite K3. f_equal. lia.
      * right. rewrite list_sum_cons, Nat.add_assoc. auto.
Qed.

Lemma inTg_unique nIn nSe el tg tg' : inTg nIn nSe el tg -> inTg nIn nSe el tg' -> tg = tg'.
Proof.
  assert (U : forall l a b e, list_sum (firstn a l) <= e < list_sum (firstn (S a) l) -> list_sum (firstn b l) <= e < list_sum (firstn (S b) l) -> a = b).
  { intros l a b e H H'. destruct (lt_eq_lt_dec a b) as [[L|L]|L]; auto; [pose proof (sum_mono l (S a) b L)|pose proof (sum_mono l (S b) a L)]; lia. }
  assert (B : forall l a, list_sum (firstn a l) <= list_sum l) by (intros l a; rewrite <- (firstn_skipn a l) at 2; rewrite list_sum_app; lia).
  intros [(L & H)|(L & H)] [(L' & H')|(L' & H')].
  - eapply U; eauto.
  - pose proof (B nIn (S tg)). lia.
  - pose proof (B nIn (S tg')). lia.
  - apply (U nSe tg tg' (el - list_sum nIn)); lia.
Qed.

Lemma getTg_ok nIn nSe el : el < list_sum nIn + list_sum nSe -> exists tg, getTg nIn nSe el = Ok tg /\ inTg nIn nSe el tg.
Proof.
  intros H. unfold getTg. destruct (findTg_ok nIn el 0 0 ltac:(lia)) as [(k & K1 & K2 & K3)|(K1 & K2)].
  - destruct (findTg 0 0 nIn el) as (o & f). cbn [fst] in K3. subst o. exists k. split; [reflexivity|]. left. cbn [Nat.add] in K2. auto.
  - rewrite K2. cbn [Nat.add] in *. destruct (findTg_ok nSe el 0 (list_sum nIn) K1) as [(k & L1 & L2 & L3)|(L1 & L2)]; [|lia].
    destruct (findTg 0 (list_sum nIn) nSe el) as (o & f). cbn [fst] in L3. subst o. exists k. split; [reflexivity|]. right. auto.
Qed.

Lemma searchCo_ok sendFa sendEl el fa : forall n co, co + n <= length sendFa -> co + n <= length sendEl ->
  exists b, searchCo sendFa sendEl el fa n co = Ok b /\
    (b = true <-> exists i, i < n /\ nth_error sendEl (co + i) = Some el /\ nth_error sendFa (co + i) = Some fa).
Proof.
  induction n as [|n IH]; intros co H1 H2; cbn [searchCo].
  - exists false. split; auto. split; [discriminate|]. intros (i & Hi & _). lia.
  - destruct (IH (S co) ltac:(lia) ltac:(lia)) as (b & E & B). rewrite (rd_ok sendFa co 0) by lia. cbn [bind].
    assert (N1 : nth_error sendFa co = Some (nth co sendFa 0)) by (apply nth_error_nth'; lia).
    assert (N2 : nth_error sendEl co = Some (nth co sendEl 0)) by (apply nth_error_nth'; lia).
    assert (STEP : (exists i, i < S n /\ nth_error sendEl (co + i) = Some el /\ nth_error sendFa (co + i) = Some fa) <->
       (nth co sendEl 0 = el /\ nth co sendFa 0 = fa) \/ (exists i, i < n /\ nth_error sendEl (S co + i) = Some el /\ nth_error sendFa (S co + i) = Some fa)).
    { split.
      - intros ([|i] & Hi & X & Y); [left; rewrite Nat.add_0_r in *; split; congruence|right; exists i; replace (S co + i) with (co + S i) by lia; repeat split; auto; lia].
      - intros [(X & Y)|(i & Hi & X & Y)]; [exists 0; rewrite Nat.add_0_r, N1, N2; repeat split; try congruence; lia|exists (S i); replace (co + S i) with (S co + i) by lia; repeat split; auto; lia]. }
    destruct (Nat.eqb_spec fa (nth co sendFa 0)) as [F|F].
    + rewrite (rd_ok sendEl co 0) by lia. cbn [bind]. destruct (Nat.eqb_spec el (nth co sendEl 0)) as [G|G].
      * exists true. split; auto. rewrite STEP. split; auto.
      * exists b. split; auto. rewrite STEP, B. split; auto. intros [(X & Y)|X]; [congruence|auto].
    + exists b. split; auto. rewrite STEP, B. split; auto. intros [(X & Y)|X]; [congruence|auto].
Qed.

Lemma searchChs_ok chs sendFa sendEl el fa : nFaces chs <= length sendFa -> nFaces chs <= length sendEl ->
  forall n ch, ch + n = length chs ->
  exists o, searchChs (encode chs) sendFa sendEl el fa n ch (faceNo chs ch 0) = Ok o /\
    match o with
    | Some tg => commTg chs sendFa sendEl el fa tg
    | None => forall ch' c i, ch <= ch' -> nth_error chs ch' = Some c -> i < cN c ->
                ~ (nth_error sendEl (faceNo chs ch' i) = Some el /\ nth_error sendFa (faceNo chs ch' i) = Some fa)
    end.
Proof.
  intros L1 L2. induction n as [|n IH]; intros ch H; cbn [searchChs].
  - exists None. split; auto. intros ch' c i Hc E _. assert (ch' < length chs) by (apply nth_error_Some; congruence). lia.
  - destruct (nth_error chs ch) as [c|] eqn:Ec; [|apply nth_error_None in Ec; lia].
    rewrite (rd_encode chs ch c 2 _ Ec eq_refl), (rd_encode chs ch c 3 _ Ec eq_refl). cbn [bind].
    assert (FB : faceNo chs ch 0 + cN c <= nFaces chs).
    { unfold nFaces, faceNo. rewrite <- (firstn_skipn (S ch) chs) at 2. rewrite (firstn_S_snoc _ _ _ Ec), !map_app, !list_sum_app. cbn [map]. rewrite list_sum_cons. lia. }
    destruct (searchCo_ok sendFa sendEl el fa (cN c) (faceNo chs ch 0) ltac:(lia) ltac:(lia)) as (b & Eb & B). rewrite Eb. cbn [bind].
    assert (FN : forall i, faceNo chs ch 0 + i = faceNo chs ch i) by (intros; unfold faceNo; lia).
    destruct b.
    + exists (Some (cTgAd c)). split; auto. destruct (proj1 B eq_refl) as (i & Hi & X & Y). exists ch, c, i. rewrite FN in X, Y. auto.
    + rewrite FN, <- (faceNo_S _ _ _ Ec). destruct (IH (S ch) ltac:(lia)) as (o & Eo & O). exists o. split; auto. destruct o as [tg|]; auto.
      intros ch' c' i Hc E Hi. destruct (Nat.eq_dec ch' ch) as [->|N]; [|apply (O ch' c' i); auto; lia].
      assert (c' = c) as -> by congruence. intros (X & Y). assert (false = true) by (apply B; exists i; rewrite FN; auto). discriminate.
Qed.

Lemma commTg_unique x el fa tg tg' : part_ok x -> commTg (xChs x) (xSendFa x) (xSendEl x) el fa tg -> commTg (xChs x) (xSendFa x) (xSendEl x) el fa tg' -> tg = tg'.
Proof.
  intros (_ & _ & _ & _ & _ & _ & _ & U) (ch & c & i & A1 & A2 & A3 & A4 & A5) (ch' & c' & i' & B1 & B2 & B3 & B4 & B5).
  assert (E : faceNo (xChs x) ch i = faceNo (xChs x) ch' i') by (apply U; try congruence; eapply faceNo_lt; eauto).
  destruct (faceNo_inj _ _ _ _ _ _ _ A1 A2 B1 B2 E) as (-> & ->). congruence.
Qed.

Lemma tgBehind_unique x el fa tg tg' : part_ok x -> tgBehind x el fa tg -> tgBehind x el fa tg' -> tg = tg'.
Proof.
  intros W (_ & [(ad & A & B)|(A & [B|(B & C)])]) (_ & [(ad' & A' & B')|(A' & [B'|(B' & C')])]); try congruence.
  - assert (ad' = ad) as -> by congruence. eapply inTg_unique; eauto.
  - eapply commTg_unique; eauto.
  - exfalso. eapply B'; eauto.
  - exfalso. eapply B; eauto.
  - eapply inTg_unique; eauto.
Qed.

Lemma getTgAd_ok x el tgEl fa : part_ok x -> el < xEls x -> fa < xElFas x -> inTg (xIn x) (xSe x) el tgEl ->
  exists tg, getTgAd (xElFas x) (xElFaEl x) (xIn x) (xSe x) (commOf x) el tgEl fa = Ok tg /\ tgBehind x el fa tg.
Proof.
  intros (W1 & W2 & W3 & W4) Hel Hfa Htg. unfold getTgAd.
  assert (LK : el * xElFas x + fa < length (xElFaEl x)) by nia.
  destruct (nth_error (xElFaEl x) (el * xElFas x + fa)) as [[ad|]|] eqn:E; [| |apply nth_error_None in E; lia]; rewrite (rd_some _ _ _ E); cbn [bind].
  - pose proof (W3 _ _ E) as L. rewrite W1 in L. destruct (getTg_ok (xIn x) (xSe x) ad L) as (tg & G & T). exists tg. split; auto. split; auto. left. exists ad. auto.
  - assert (EX : exists o, getTgComm (commOf x) el fa = Ok o /\ match o with Some tg => commTg (xChs x) (xSendFa x) (xSendEl x) el fa tg
       | None => forall tg', ~ commTg (xChs x) (xSendFa x) (xSendEl x) el fa tg' end).
    { unfold commOf. destruct (xChs x) as [|c0 chs0] eqn:EC.
      - exists None. split; [reflexivity|]. intros tg' (ch & c & i & A & _). destruct ch; discriminate.
      - rewrite <- EC in *. cbn [getTgComm].
        assert (R0 : rd (encode (xChs x)) 0 = Ok (length (xChs x))) by reflexivity. rewrite R0. cbn [bind].
        destruct W4 as (V1 & V2 & _).
        destruct (searchChs_ok (xChs x) (xSendFa x) (xSendEl x) el fa ltac:(lia) ltac:(lia) (length (xChs x)) 0 eq_refl) as (o & Eo & O).
        unfold faceNo in Eo at 1. cbn [firstn map] in Eo. change (list_sum [] + 0) with 0 in Eo. exists o. split; auto. destruct o as [tg|]; auto.
        intros tg' (ch & c & i & A1 & A2 & A3 & A4 & A5). apply (O ch c i); auto. lia. }
    destruct EX as (o & Eo & O). rewrite Eo. cbn [bind]. eexists. split; [reflexivity|]. split; auto. right. split; auto. destruct o as [tg|]; auto.
Qed.

(** bits *)
Lemma has_bit c b : has c (2 ^ b)%N = N.testbit c b.
Proof.
  unfold has. destruct (N.testbit c b) eqn:T.
  - apply N.eqb_eq. apply N.bits_inj. intros k. rewrite N.land_spec, N.pow2_bits_eqb. destruct (N.eqb_spec b k) as [->|]; [now rewrite T|now rewrite andb_false_r].
  - apply N.eqb_neq. intros E. assert (X : N.testbit (N.land c (2 ^ b)) b = true) by (rewrite E; apply N.pow2_bits_true). rewrite N.land_spec, T in X. discriminate.
Qed.

Lemma has_lor_bits c m fm : (exists b, m = 2 ^ b)%N -> (exists b, fm = 2 ^ b)%N -> has (N.lor c fm) m = has c m || N.eqb m fm.
Proof.
  intros (b & ->) (b' & ->). rewrite !has_bit, N.lor_spec, N.pow2_bits_eqb. f_equal.
  destruct (N.eqb_spec b' b) as [->|N]; [now rewrite N.eqb_refl|]. symmetry. apply N.eqb_neq. intros E. apply N. symmetry. apply (N.pow_inj_r 2); [reflexivity|auto].
Qed.

(** relation of a face: mask *)
Definition relMask (fl : ltsFlags) (tgEl tgAd fa : nat) : N :=
  if tgEl =? tgAd then nth fa (fAdEq fl) 0%N else if tgEl <? tgAd then nth fa (fAdLt fl) 0%N else nth fa (fAdGt fl) 0%N.

Definition near (a b : nat) : Prop := a <= b + 1 /\ b <= a + 1.

Section El.
Variables (fl : ltsFlags) (x : part).
Hypothesis W : part_ok x.
Hypothesis HF : flags_ok fl (xElFas x).

Lemma mask_bit m : In m (masks fl) -> exists b, m = (2 ^ b)%N.
Proof. apply HF. Qed.

Lemma in_masks fa : fa < xElFas x -> In (nth fa (fAdEq fl) 0%N) (masks fl) /\ In (nth fa (fAdLt fl) 0%N) (masks fl) /\ In (nth fa (fAdGt fl) 0%N) (masks fl).
Proof.
  intros H. destruct HF as (L1 & L2 & L3 & _). unfold masks. split; [|split]; apply in_or_app; right; apply in_or_app; [left|right; apply in_or_app; left|right; apply in_or_app; right]; apply nth_In; lia.
Qed.

(** result for the element's entry *)
Definition elOut (el tgEl : nat) (c c' : N) : Prop :=
  (forall m, In m (masks fl) -> has c' m = true <->
     has c m = true \/ (exists fa tgAd, tgBehind x el fa tgAd /\ m = relMask fl tgEl tgAd fa) \/
     (m = fElEq fl /\ exists fa, tgBehind x el fa tgEl) \/
     (m = fElLt fl /\ exists fa tgAd, tgBehind x el fa tgAd /\ tgEl < tgAd) \/
     (m = fElGt fl /\ exists fa tgAd, tgBehind x el fa tgAd /\ tgAd < tgEl)) /\
  (forall b, (forall m, In m (masks fl) -> m <> (2 ^ b)%N) -> N.testbit c' b = N.testbit c b).

Lemma other_bit c m b : In m (masks fl) -> (forall m, In m (masks fl) -> m <> (2 ^ b)%N) -> N.testbit (N.lor c m) b = N.testbit c b.
Proof.
  intros H N. destruct (mask_bit m H) as (b' & ->). rewrite N.lor_spec, N.pow2_bits_eqb. destruct (N.eqb_spec b' b) as [->|]; [exfalso; eapply N; eauto|now rewrite orb_false_r].
Qed.

Lemma has_lor c m m' : In m (masks fl) -> In m' (masks fl) -> has (N.lor c m') m = true <-> has c m = true \/ m = m'.
Proof.
  intros H H'. rewrite has_lor_bits by now apply mask_bit. rewrite orb_true_iff, N.eqb_eq. tauto.
Qed.

Definition faceInv (el tgEl k : nat) (sp0 : list N) (c : N) (s : list N * bool * bool * bool) : Prop :=
  let '(sp, eq, lt, gt) := s in
  exists c', sp = upd sp0 el c' /\
    (forall m, In m (masks fl) -> has c' m = true <-> has c m = true \/ exists fa tgAd, fa < k /\ tgBehind x el fa tgAd /\ m = relMask fl tgEl tgAd fa) /\
    (forall b, (forall m, In m (masks fl) -> m <> (2 ^ b)%N) -> N.testbit c' b = N.testbit c b) /\
    (eq = true <-> exists fa, fa < k /\ tgBehind x el fa tgEl) /\
    (lt = true <-> exists fa tgAd, fa < k /\ tgBehind x el fa tgAd /\ tgEl < tgAd) /\
    (gt = true <-> exists fa tgAd, fa < k /\ tgBehind x el fa tgAd /\ tgAd < tgEl).

Lemma upd_upd {A} (l : list A) i u v : upd (upd l i u) i v = upd l i v.
Proof. revert i. induction l as [|y l IH]; intros [|i]; cbn; auto. now rewrite IH. Qed.

Lemma upd_same {A} (l : list A) i v : nth_error l i = Some v -> upd l i v = l.
Proof. revert i. induction l as [|y l IH]; intros [|i]; cbn; intros E; try discriminate; [congruence|]. now rewrite IH. Qed.

Lemma exS (P : nat -> nat -> Prop) k : (exists fa t, fa < S k /\ P fa t) <-> (exists fa t, fa < k /\ P fa t) \/ exists t, P k t.
Proof.
  split.
  - intros (fa & t & L & H). destruct (Nat.eq_dec fa k) as [->|N]; [right; eauto|left; exists fa, t; split; auto; lia].
  - intros [(fa & t & L & H)|(t & H)]; [exists fa, t; split; auto|exists k, t; split; auto].
Qed.

Lemma ltsFace_ok el tgEl fa sp0 c s : el < xEls x -> fa < xElFas x -> inTg (xIn x) (xSe x) el tgEl -> nth_error sp0 el = Some c ->
  faceInv el tgEl fa sp0 c s ->
  (exists s', ltsFace fl (xElFas x) (xElFaEl x) (xIn x) (xSe x) (commOf x) el tgEl fa s = Ok s' /\ faceInv el tgEl (S fa) sp0 c s' /\
     forall tgAd, tgBehind x el fa tgAd -> near tgEl tgAd) \/
  (ltsFace fl (xElFas x) (xElFaEl x) (xIn x) (xSe x) (commOf x) el tgEl fa s = Er Echeck /\
     exists tgAd, tgBehind x el fa tgAd /\ ~ near tgEl tgAd).
Proof.
  intros Hel Hfa Htg Hc. destruct s as (((sp & eq) & lt) & gt). intros (c' & -> & I1 & I2 & I3 & I4 & I5). unfold ltsFace.
  destruct (getTgAd_ok x el tgEl fa W Hel Hfa Htg) as (tgAd & G & T). rewrite G. cbn [bind].
  assert (EL : el < length sp0) by (apply nth_error_Some; congruence).
  rewrite (rd_some _ _ c') by now apply nth_error_upd_eq. cbn [bind].
  pose proof HF as (L1 & L2 & L3 & _). destruct (in_masks fa Hfa) as (M1 & M2 & M3).
  assert (UN : forall t, tgBehind x el fa t <-> t = tgAd) by (intros t; split; [intros H; eapply tgBehind_unique; eauto|intros ->; auto]).
  assert (OUT : forall m' eq' lt' gt', m' = relMask fl tgEl tgAd fa -> In m' (masks fl) ->
     (eq' = true <-> eq = true \/ tgEl = tgAd) -> (lt' = true <-> lt = true \/ tgEl < tgAd) -> (gt' = true <-> gt = true \/ tgAd < tgEl) ->
     exists s', (sp <- wr (upd sp0 el c') el (N.lor c' m') ;; Ok (sp, eq', lt', gt')) = Ok s' /\ faceInv el tgEl (S fa) sp0 c s').
  { intros m' eq' lt' gt' Hm Im He Hl Hg. rewrite wr_ok by now rewrite length_upd. cbn [bind]. eexists. split; [reflexivity|]. exists (N.lor c' m'). repeat split.
    - now rewrite upd_upd.
    - intros H1. apply has_lor in H1; auto. rewrite exS. destruct H1 as [H1|H1]; [apply I1 in H1; tauto|]. right. right. exists tgAd. split; auto. congruence.
    - intros H1. apply has_lor; auto. rewrite exS in H1. rewrite I1 by auto. destruct H1 as [H1|[H1|(t & H1 & H2)]]; auto. apply UN in H1. subst t. right. congruence.
    - intros b Hb. rewrite other_bit; auto.
    - intros X. apply He in X. destruct X as [X|X]; [apply I3 in X as (f & F1 & F2); exists f; split; auto|exists fa; split; auto; apply UN; auto].
    - intros (f & F1 & F2). apply He. destruct (Nat.eq_dec f fa) as [->|N]; [right; now apply UN|left; apply I3; exists f; split; auto; lia].
    - intros X. apply Hl in X. rewrite exS. rewrite I4 in X. destruct X as [X|X]; [auto|right; exists tgAd; split; auto].
    - intros X. rewrite exS in X. apply Hl. rewrite I4. destruct X as [X|(t & X & Y)]; [auto|right]. apply UN in X. now subst t.
    - intros X. apply Hg in X. rewrite exS. rewrite I5 in X. destruct X as [X|X]; [auto|right; exists tgAd; split; auto].
    - intros X. rewrite exS in X. apply Hg. rewrite I5. destruct X as [X|(t & X & Y)]; [auto|right]. apply UN in X. now subst t. }
  unfold relMask in OUT.
  destruct (Nat.eqb_spec tgEl tgAd) as [E|E].
  - left. rewrite (rd_ok _ _ 0%N) by lia. cbn [bind].
    edestruct (OUT (nth fa (fAdEq fl) 0%N) true lt gt) as (s' & O1 & O2); auto; try (split; auto; intros [|]; auto; lia); try (intuition lia).
    exists s'. split; auto. split; auto. intros t Ht. apply UN in Ht. unfold near. lia.
  - destruct (Nat.ltb_spec tgEl tgAd) as [L|L].
    + destruct (Nat.eqb_spec (tgEl + 1) tgAd) as [N|N]; cbn [check bind].
      * left. rewrite (rd_ok _ _ 0%N) by lia. cbn [bind].
        edestruct (OUT (nth fa (fAdLt fl) 0%N) eq true gt) as (s' & O1 & O2); auto; try (split; auto; intros [|]; auto; lia); try (intuition lia).
        exists s'. split; auto. split; auto. intros t Ht. apply UN in Ht. unfold near. lia.
      * right. split; auto. exists tgAd. split; auto. unfold near. lia.
    + destruct (Nat.eqb_spec tgEl (tgAd + 1)) as [N|N]; cbn [check bind].
      * left. rewrite (rd_ok _ _ 0%N) by lia. cbn [bind].
        edestruct (OUT (nth fa (fAdGt fl) 0%N) eq lt true) as (s' & O1 & O2); auto; try (split; auto; intros [|]; auto; lia); try (intuition lia).
        exists s'. split; auto. split; auto. intros t Ht. apply UN in Ht. unfold near. lia.
      * right. split; auto. exists tgAd. split; auto. unfold near. lia.
Qed.

Lemma for_dec {S} (I : nat -> S -> Prop) (bad : nat -> Prop) body : forall n i s, I i s ->
  (forall k s, i <= k < i + n -> I k s -> (exists s', body k s = Ok s' /\ I (Datatypes.S k) s' /\ ~ bad k) \/ (body k s = Er Echeck /\ bad k)) ->
  (exists s', for_n n i body s = Ok s' /\ I (i + n) s' /\ forall k, i <= k < i + n -> ~ bad k) \/ (for_n n i body s = Er Echeck /\ exists k, i <= k < i + n /\ bad k).
Proof.
  induction n as [|n IH]; intros i s HI H; cbn [for_n].
  - left. exists s. rewrite Nat.add_0_r. repeat split; auto. intros; lia.
  - destruct (H i s ltac:(lia) HI) as [(s1 & E & I1 & N)|(E & B)]; rewrite E; cbn [bind].
    + destruct (IH (Datatypes.S i) s1 I1) as [(s2 & E2 & I2 & N2)|(E2 & k & K & B)].
      * intros k s' Hk. apply H. lia.
      * left. exists s2. replace (i + Datatypes.S n) with (Datatypes.S i + n) by lia. repeat split; auto. intros k Hk. destruct (Nat.eq_dec k i) as [->|]; auto. apply N2. lia.
      * right. split; auto. exists k. split; auto. lia.
    + right. split; auto. exists i. split; auto. lia.
Qed.

Definition badFace (el tgEl fa : nat) : Prop := exists tgAd, tgBehind x el fa tgAd /\ ~ near tgEl tgAd.
Definition badEl (el : nat) : Prop := exists tgEl fa, inTg (xIn x) (xSe x) el tgEl /\ badFace el tgEl fa.

Lemma ltsEl_ok el sp c : el < xEls x -> nth_error sp el = Some c ->
  (exists c' tgEl, ltsEl fl (xElFas x) (xElFaEl x) (xIn x) (xSe x) (commOf x) el sp = Ok (upd sp el c') /\ inTg (xIn x) (xSe x) el tgEl /\ elOut el tgEl c c' /\ ~ badEl el) \/
  (ltsEl fl (xElFas x) (xElFaEl x) (xIn x) (xSe x) (commOf x) el sp = Er Echeck /\ badEl el).
Proof.
  intros Hel Hc. unfold ltsEl. pose proof W as (W1 & _). destruct (getTg_ok (xIn x) (xSe x) el ltac:(lia)) as (tgEl & G & T). rewrite G. cbn [bind].
  assert (EL : el < length sp) by (apply nth_error_Some; congruence).
  destruct (for_dec (fun k s => faceInv el tgEl k sp c s) (badFace el tgEl) (ltsFace fl (xElFas x) (xElFaEl x) (xIn x) (xSe x) (commOf x) el tgEl) (xElFas x) 0 (sp, false, false, false))
    as [(s' & E & I & N)|(E & k & K & B)].
  - exists c. split; [now rewrite upd_same|]. repeat split; auto; try discriminate.
    + intros [X|(f & t & L & _)]; [auto|lia].
    + intros (f & L & _). lia.
    + intros (f & t & L & _). lia.
    + intros (f & t & L & _). lia.
  - intros k s Hk HI. destruct (ltsFace_ok el tgEl k sp c s Hel ltac:(lia) T Hc HI) as [(s' & E & I & N)|(E & B)]; [left|right; auto].
    exists s'. repeat split; auto. intros (t & A & B). apply B. now apply N.
  - left. unfold for_. rewrite Nat.sub_0_r, E. destruct s' as (((sp' & eq) & lt) & gt). cbn [bind]. cbn [Nat.add] in *.
    destruct I as (c1 & -> & I1 & I2 & I3 & I4 & I5).
    assert (MS : In (fElEq fl) (masks fl) /\ In (fElLt fl) (masks fl) /\ In (fElGt fl) (masks fl)) by (unfold masks; cbn [app In]; tauto).
    destruct MS as (ME & ML & MG).
    assert (STEP : forall (b : bool) m c1, In m (masks fl) -> exists c2, (if b then c <- rd (upd sp el c1) el ;; wr (upd sp el c1) el (N.lor c m) else Ok (upd sp el c1)) = Ok (upd sp el c2) /\
       (forall m', In m' (masks fl) -> has c2 m' = true <-> has c1 m' = true \/ (b = true /\ m' = m)) /\
       (forall bt, (forall m, In m (masks fl) -> m <> (2 ^ bt)%N) -> N.testbit c2 bt = N.testbit c1 bt)).
    { intros b m cc Hm. destruct b.
      - exists (N.lor cc m). rewrite (rd_some _ _ cc) by now apply nth_error_upd_eq. cbn [bind]. rewrite wr_ok by now rewrite length_upd. rewrite upd_upd. split; auto. split.
        + intros m' Hm'. rewrite has_lor by auto. tauto.
        + intros bt Hb. now rewrite other_bit.
      - exists cc. repeat split; auto. intros [X|(X & _)]; [auto|discriminate]. }
    destruct (STEP eq (fElEq fl) c1 ME) as (c2 & E2 & H2 & B2). rewrite E2. cbn [bind].
    destruct (STEP lt (fElLt fl) c2 ML) as (c3 & E3 & H3 & B3). rewrite E3. cbn [bind].
    destruct (STEP gt (fElGt fl) c3 MG) as (c4 & E4 & H4 & B4). rewrite E4.
    assert (BND : forall P : nat -> nat -> Prop, (exists fa t, fa < xElFas x /\ tgBehind x el fa t /\ P fa t) <-> exists fa t, tgBehind x el fa t /\ P fa t).
    { intros P. split; intros (fa & t & H); [exists fa, t; tauto|]. exists fa, t. split; [apply (proj1 (proj1 H))|auto]. }
    exists c4, tgEl. split; auto. split; auto. split; [split|].
    + intros m Hm. rewrite H4, H3, H2, I1, I3, I4, I5 by auto. rewrite !BND. split.
      * intros [[[[X|X]|((f & L & X) & Y)]|(X & Y)]|(X & Y)]; auto 10. do 2 right. left. split; auto. exists f. auto.
      * intros [X|[X|[(Y & f & X)|[(Y & X)|(Y & X)]]]]; auto 10. left. left. right. split; auto. exists f. split; auto. apply (proj1 X).
    + intros b Hb. rewrite B4, B3, B2, I2; auto.
    + intros (t & fa & T' & B). assert (t = tgEl) as -> by (eapply inTg_unique; eauto). destruct B as (ta & B1 & B2'). apply (N fa); [split; [lia|apply B1]|]. exists ta. auto.
  - right. unfold for_. rewrite Nat.sub_0_r, E. cbn [bind]. split; auto. exists tgEl, k. auto.
Qed.

Lemma runLts_ok sp : length sp = xEls x ->
  (exists sp', runLts fl x sp = Ok sp' /\ length sp' = length sp /\ (forall el, el < xEls x -> ~ badEl el) /\
     forall el c, nth_error sp el = Some c -> exists c' tgEl, nth_error sp' el = Some c' /\ inTg (xIn x) (xSe x) el tgEl /\ elOut el tgEl c c') \/
  (runLts fl x sp = Er Echeck /\ exists el, el < xEls x /\ badEl el).
Proof.
  intros L. unfold runLts, setLtsTypes, for_. rewrite Nat.sub_0_r.
  destruct (for_dec (fun k s => length s = length sp /\ (forall el, k <= el -> nth_error s el = nth_error sp el) /\
     forall el c, el < k -> nth_error sp el = Some c -> exists c' tgEl, nth_error s el = Some c' /\ inTg (xIn x) (xSe x) el tgEl /\ elOut el tgEl c c') badEl
     (ltsEl fl (xElFas x) (xElFaEl x) (xIn x) (xSe x) (commOf x)) (xEls x) 0 sp) as [(s' & E & (I1 & I2 & I3) & N)|(E & k & K & B)].
  - repeat split; auto. intros; lia.
  - intros k s Hk (I1 & I2 & I3). destruct (nth_error sp k) as [c|] eqn:Ec; [|apply nth_error_None in Ec; lia].
    destruct (ltsEl_ok k s c ltac:(lia)) as [(c' & tgEl & E & T & O & N)|(E & B)]; [rewrite I2 by lia; auto| |right; auto].
    left. exists (upd s k c'). split; auto. split; [|auto]. split; [now rewrite length_upd|]. split.
    + intros el Hl. rewrite nth_error_upd_ne by lia. apply I2. lia.
    + intros el c0 Hl H0. destruct (Nat.eq_dec el k) as [->|Ne].
      * assert (c0 = c) as -> by congruence. exists c', tgEl. split; [apply nth_error_upd_eq; lia|auto].
      * destruct (I3 el c0 ltac:(lia) H0) as (c2 & t2 & X). exists c2, t2. rewrite nth_error_upd_ne by lia. auto.
  - left. exists s'. split; auto. split; auto. split; [intros; apply N; lia|]. intros el c Hc. apply I3; auto. cbn [Nat.add]. rewrite <- L. apply nth_error_Some. congruence.
  - right. split; auto. exists k. split; [lia|auto].
Qed.
End El.

(** * C24 *)

(** Every element has exactly one time group, and there is exactly one behind each of its faces. *)
Lemma C24_groups_defined x el : part_ok x -> el < xEls x ->
  exists tg, inTg (xIn x) (xSe x) el tg /\ (forall tg', inTg (xIn x) (xSe x) el tg' -> tg' = tg) /\
    forall fa, fa < xElFas x -> exists tgAd, tgBehind x el fa tgAd /\ forall tg', tgBehind x el fa tg' -> tg' = tgAd.
Proof.
  intros W Hel. pose proof W as (W1 & _). destruct (getTg_ok (xIn x) (xSe x) el ltac:(lia)) as (tg & _ & T). exists tg. split; auto. split; [intros; eapply inTg_unique; eauto|].
  intros fa Hfa. destruct (getTgAd_ok x el tg fa W Hel Hfa T) as (t & _ & B). exists t. split; auto. intros; eapply tgBehind_unique; eauto.
Qed.

Lemma inTg_lt x el tg : part_ok x -> inTg (xIn x) (xSe x) el tg -> el < xEls x.
Proof.
  intros (W1 & _) H. assert (B : forall l a, list_sum (firstn a l) <= list_sum l) by (intros l a; rewrite <- (firstn_skipn a l) at 2; rewrite list_sum_app; lia).
  destruct H as [(_ & H)|(_ & H)]; [pose proof (B (xIn x) (S tg))|pose proof (B (xSe x) (S tg))]; lia.
Qed.

Lemma carries_has chars m el c : nth_error chars el = Some c -> carries chars m el <-> has c m = true.
Proof. intros E. rewrite <- sp_carries. unfold sp. now rewrite E. Qed.

(** mask of a face's relation: distinct from the others *)
Lemma NoDup_app_disj {A} (l l' : list A) : NoDup (l ++ l') -> forall a, In a l -> In a l' -> False.
Proof.
  induction l as [|y l IH]; cbn; intros N a H H'; [easy|]. apply NoDup_cons_iff in N as (N1 & N2). destruct H as [->|H]; [apply N1; apply in_or_app; auto|eauto].
Qed.

Lemma NoDup_app_r {A} (l l' : list A) : NoDup (l ++ l') -> NoDup l'.
Proof. induction l as [|y l IH]; cbn; auto. intros N. apply NoDup_cons_iff in N as (_ & N). auto. Qed.

Lemma NoDup_app_l {A} (l l' : list A) : NoDup (l ++ l') -> NoDup l.
Proof. induction l as [|y l IH]; cbn; intros N; [constructor|]. apply NoDup_cons_iff in N as (N1 & N). constructor; auto. intros H. apply N1. apply in_or_app; auto. Qed.

Section Masks.
Variables (fl : ltsFlags) (n : nat).
Hypothesis HF : flags_ok fl n.

Lemma el_masks_ne : fElEq fl <> fElLt fl /\ fElEq fl <> fElGt fl /\ fElLt fl <> fElGt fl.
Proof.
  destruct HF as (_ & _ & _ & N & _). unfold masks in N. cbn [app] in N. inversion N as [|? ? A N1]; subst. inversion N1 as [|? ? B N2]; subst. cbn [In] in A, B.
  repeat split; intros E; [apply A|apply A|apply B]; rewrite E; tauto.
Qed.

Lemma relMask_in t t' fa : fa < n -> In (relMask fl t t' fa) (fAdEq fl ++ fAdLt fl ++ fAdGt fl).
Proof.
  intros H. destruct HF as (L1 & L2 & L3 & _). unfold relMask. rewrite !in_app_iff.
  destruct (t =? t'); [|destruct (t <? t')]; [left|right; left|right; right]; apply nth_In; lia.
Qed.

Lemma relMask_el t t' fa m : fa < n -> In m [fElEq fl; fElLt fl; fElGt fl] -> m <> relMask fl t t' fa.
Proof.
  intros H Hm E. destruct HF as (_ & _ & _ & N & _). unfold masks in N. rewrite E in Hm. eapply NoDup_app_disj; [exact N|exact Hm|]. now apply relMask_in.
Qed.

Lemma relMask_inj t t' fa u u' fa' : fa < n -> fa' < n -> relMask fl t t' fa = relMask fl u u' fa' ->
  fa = fa' /\ (t = t' <-> u = u') /\ (t < t' <-> u < u').
Proof.
  intros H H' E. destruct HF as (L1 & L2 & L3 & N & _). unfold masks in N. apply NoDup_app_r in N.
  assert (NE := NoDup_app_l _ _ N). assert (N' := NoDup_app_r _ _ N). assert (NL := NoDup_app_l _ _ N'). assert (NG := NoDup_app_r _ _ N').
  assert (D1 := NoDup_app_disj _ _ N). assert (D2 := NoDup_app_disj _ _ N').
  assert (J : forall l : list BinNums.N, NoDup l -> n <= length l -> nth fa l 0%N = nth fa' l 0%N -> fa = fa') by (intros l Nl Ll El; eapply NoDup_nth; eauto; lia).
  unfold relMask in E.
  assert (I1 : forall f, f < n -> In (nth f (fAdEq fl) 0%N) (fAdEq fl)) by (intros; apply nth_In; lia).
  assert (I2 : forall f, f < n -> In (nth f (fAdLt fl) 0%N) (fAdLt fl)) by (intros; apply nth_In; lia).
  assert (I3 : forall f, f < n -> In (nth f (fAdGt fl) 0%N) (fAdGt fl)) by (intros; apply nth_In; lia).
  destruct (Nat.eqb_spec t t'); [|destruct (Nat.ltb_spec t t')]; (destruct (Nat.eqb_spec u u'); [|destruct (Nat.ltb_spec u u')]);
    try (split; [apply (J _ NE); [lia|exact E]|lia]); try (split; [apply (J _ NL); [lia|exact E]|lia]); try (split; [apply (J _ NG); [lia|exact E]|lia]); exfalso.
  - apply (D1 (nth fa (fAdEq fl) 0%N)); auto. rewrite E, in_app_iff. auto.
  - apply (D1 (nth fa (fAdEq fl) 0%N)); auto. rewrite E, in_app_iff. auto.
  - apply (D1 (nth fa' (fAdEq fl) 0%N)); auto. rewrite <- E, in_app_iff. auto.
  - apply (D2 (nth fa (fAdLt fl) 0%N)); auto. rewrite E. auto.
  - apply (D1 (nth fa' (fAdEq fl) 0%N)); auto. rewrite <- E, in_app_iff. auto.
  - apply (D2 (nth fa' (fAdLt fl) 0%N)); auto. rewrite <- E. auto.
Qed.
End Masks.

(** setLtsTypes succeeds if the groups of face-adjacent elements differ by at most one.  The flag of a face then tells exactly
    if the group behind the face is the same, larger or smaller; those of the element tell if there is such a face.  Nothing
    else changes. *)
Theorem C24_relations fl x sp : part_ok x -> flags_ok fl (xElFas x) -> length sp = xEls x ->
  (forall el fa tg tgAd, inTg (xIn x) (xSe x) el tg -> tgBehind x el fa tgAd -> near tg tgAd) ->
  exists out, runLts fl x sp = Ok out /\ length out = length sp /\
    (forall el fa tg tgAd, inTg (xIn x) (xSe x) el tg -> tgBehind x el fa tgAd ->
       (carries out (nth fa (fAdEq fl) 0%N) el <-> carries sp (nth fa (fAdEq fl) 0%N) el \/ tg = tgAd) /\
       (carries out (nth fa (fAdLt fl) 0%N) el <-> carries sp (nth fa (fAdLt fl) 0%N) el \/ tg < tgAd) /\
       (carries out (nth fa (fAdGt fl) 0%N) el <-> carries sp (nth fa (fAdGt fl) 0%N) el \/ tgAd < tg)) /\
    (forall el tg, inTg (xIn x) (xSe x) el tg ->
       (carries out (fElEq fl) el <-> carries sp (fElEq fl) el \/ exists fa, tgBehind x el fa tg) /\
       (carries out (fElLt fl) el <-> carries sp (fElLt fl) el \/ exists fa tgAd, tgBehind x el fa tgAd /\ tg < tgAd) /\
       (carries out (fElGt fl) el <-> carries sp (fElGt fl) el \/ exists fa tgAd, tgBehind x el fa tgAd /\ tgAd < tg)) /\
    (forall el c c' b, nth_error sp el = Some c -> nth_error out el = Some c' -> (forall m, In m (masks fl) -> m <> (2 ^ b)%N) ->
       N.testbit c' b = N.testbit c b).
Proof.
  intros W HF L R. destruct (runLts_ok fl x W HF sp L) as [(out & E & L' & _ & O)|(_ & el & _ & t & fa & T & ta & B & N)]; [|exfalso; apply N; eauto].
  assert (OE : forall el tg, inTg (xIn x) (xSe x) el tg -> exists c c', nth_error sp el = Some c /\ nth_error out el = Some c' /\ elOut fl x el tg c c').
  { intros el tg T. pose proof (inTg_lt x el tg W T). destruct (nth_error sp el) as [c|] eqn:Ec; [|apply nth_error_None in Ec; lia].
    destruct (O el c Ec) as (c' & t' & E' & T' & X). exists c, c'. assert (tg = t') as -> by (eapply inTg_unique; eauto). auto. }
  exists out. split; auto. split; auto. split; [|split].
  - intros el fa tg tgAd T B. destruct (OE el tg T) as (c & c' & Ec & Ec' & (X & _)). pose proof (proj1 B) as Hfa.
    assert (MS := in_masks fl x HF fa Hfa). destruct MS as (M1 & M2 & M3).
    assert (P : forall m u u', In m (masks fl) -> m = relMask fl u u' fa ->
       (carries out m el <-> carries sp m el \/ ((tg = tgAd <-> u = u') /\ (tg < tgAd <-> u < u')))).
    { intros m u u' Im Em. rewrite (carries_has _ _ _ _ Ec), (carries_has _ _ _ _ Ec'), (X m Im). split.
      - intros [Y|[(f & t & Bt & Y)|[(Y & _)|[(Y & _)|(Y & _)]]]]; auto; [|exfalso; eapply (relMask_el fl _ HF u u' fa); [exact Hfa| |symmetry; rewrite <- Em; exact Y]; cbn; tauto..].
        rewrite Em in Y. apply (relMask_inj fl _ HF) in Y as (-> & Y1 & Y2); auto; [|apply Bt]. assert (t = tgAd) as -> by (eapply tgBehind_unique; eauto). right. split; symmetry; auto.
      - intros [Y|(Y1 & Y2)]; auto. right. left. exists fa, tgAd. split; auto. rewrite Em. unfold relMask.
        destruct (Nat.eqb_spec u u'), (Nat.eqb_spec tg tgAd); auto; try tauto. destruct (Nat.ltb_spec u u'), (Nat.ltb_spec tg tgAd); auto; tauto || lia. }
    split; [|split].
    + rewrite (P _ 0 0 M1 eq_refl). split; (intros [Y|Y]; [auto|right; lia]).
    + rewrite (P _ 0 1 M2 eq_refl). split; (intros [Y|Y]; [auto|right; lia]).
    + rewrite (P _ 1 0 M3 eq_refl). split; (intros [Y|Y]; [auto|right; lia]).
  - intros el tg T. destruct (OE el tg T) as (c & c' & Ec & Ec' & (X & _)). destruct (el_masks_ne fl _ HF) as (N1 & N2 & N3).
    assert (RM : forall m, In m [fElEq fl; fElLt fl; fElGt fl] -> ~ exists fa tgAd, tgBehind x el fa tgAd /\ m = relMask fl tg tgAd fa).
    { intros m Hm (fa & t & B & Y). eapply (relMask_el fl _ HF); [exact (proj1 B)|exact Hm|exact Y]. }
    rewrite !(carries_has _ _ _ _ Ec), !(carries_has _ _ _ _ Ec'). rewrite !X by (unfold masks; cbn [app In]; tauto).
    pose proof (RM (fElEq fl) ltac:(cbn; auto)). pose proof (RM (fElLt fl) ltac:(cbn; auto)). pose proof (RM (fElGt fl) ltac:(cbn; auto)).
    clear X RM. repeat split; intuition congruence.
  - intros el c c' b Ec Ec' Hb. destruct (O el c Ec) as (c2 & t & E2 & _ & (_ & X)). assert (c2 = c') as -> by congruence. now apply X.
Qed.
Print Assumptions C24_relations.

(** A mesh whose groups differ by more than one at some face is rejected. *)
Theorem C24_rejects fl x sp : part_ok x -> flags_ok fl (xElFas x) -> length sp = xEls x ->
  (exists el fa tg tgAd, inTg (xIn x) (xSe x) el tg /\ tgBehind x el fa tgAd /\ ~ near tg tgAd) -> runLts fl x sp = Er Echeck.
Proof.
  intros W HF L (el & fa & t & ta & T & B & N). destruct (runLts_ok fl x W HF sp L) as [(out & E & _ & X & _)|(E & _)]; auto.
  exfalso. apply (X el); [now apply (inTg_lt x el t)|]. exists t, fa. split; auto. exists ta. auto.
Qed.
Print Assumptions C24_rejects.

(** * C47: time buffers *)

(** Local adjacency is symmetric. *)
Definition symmetric (x : part) : Prop :=
  forall el fa ad, fa < xElFas x -> nth_error (xElFaEl x) (el * xElFas x + fa) = Some (Some ad) ->
    exists fa', fa' < xElFas x /\ nth_error (xElFaEl x) (ad * xElFas x + fa') = Some (Some el).

Definition runAdd (fl : ltsFlags) (x : part) (chars : list N) : res (list N) :=
  addLtsTypes fl (xEls x) (xElFas x) (xElFaEl x) (xIn x) (xSe x) (commOf x) chars.

Lemma runAdd_ok fl x chars out0 : length chars = xEls x -> length out0 = xEls x -> runLts fl x (repeat 0%N (xEls x)) = Ok out0 ->
  exists out, runAdd fl x chars = Ok out /\ length out = xEls x /\
    forall el c t, nth_error chars el = Some c -> nth_error out0 el = Some t -> nth_error out el = Some (N.lor c t).
Proof.
  intros L L0 E. unfold runAdd, addLtsTypes. unfold runLts in E. rewrite E. cbn [bind].
  destruct (for_ok (fun k s => length s = xEls x /\ (forall el, k <= el -> nth_error s el = nth_error chars el) /\
     forall el c t, el < k -> nth_error chars el = Some c -> nth_error out0 el = Some t -> nth_error s el = Some (N.lor c t)) 0 (xEls x)
     (fun el chars => c <- rd chars el ;; t <- rd out0 el ;; wr chars el (N.lor c t)) chars) as (s' & Es & I1 & I2 & I3); [lia| | |].
  - repeat split; auto. intros; lia.
  - intros k s Hk (I1 & I2 & I3). rewrite (rd_ok s k 0%N), (rd_ok out0 k 0%N) by lia. cbn [bind]. rewrite wr_ok by lia. eexists. split; [reflexivity|]. split; [now rewrite length_upd|]. split.
    + intros el H. rewrite nth_error_upd_ne by lia. apply I2. lia.
    + intros el c t H Hc Ht. destruct (Nat.eq_dec el k) as [->|N]; [|rewrite nth_error_upd_ne by lia; apply I3; auto; lia].
      rewrite nth_error_upd_eq by lia. rewrite <- I2 in Hc by lia. now rewrite (nth_error_nth _ _ _ Hc), (nth_error_nth _ _ _ Ht).
  - exists s'. repeat split; auto. intros el c t Hc Ht. apply I3; auto. rewrite <- L. apply nth_error_Some. congruence.
Qed.

Lemma has_lor_or a b m : (exists k, m = 2 ^ k)%N -> has (N.lor a b) m = has a m || has b m.
Proof. intros (k & ->). now rewrite !has_bit, N.lor_spec. Qed.

Lemma has_0 m : (exists k, m = 2 ^ k)%N -> has 0 m = false.
Proof. intros (k & ->). now rewrite has_bit. Qed.

(** Let the sparse types not carry relation flags before.  Then the time buffers from which a neighbouring update reads data of
    the element behind a face of the same rank are those which that element has and writes: the pointer to the buffer (set up
    by flex with the two flags of the element as sparse types) is not null.  The same holds for all buffers an element writes. *)
Theorem C47_time_buffers fl x chars garbage bSize spSizes : part_ok x -> flags_ok fl (xElFas x) -> symmetric x -> length chars = xEls x -> length spSizes = 2 ->
  (forall el m, In m (masks fl) -> ~ carries chars m el) ->
  (forall el fa tg tgAd, inTg (xIn x) (xSe x) el tg -> tgBehind x el fa tgAd -> near tg tgAd) ->
  exists out mem ptrs, runAdd fl x chars = Ok out /\ flex garbage (xEls x) 2 bSize [fElLt fl; fElGt fl] spSizes out = Ok (mem, ptrs) /\
    (forall el c bu, nth_error out el = Some c -> In bu (buffersWritten fl c) -> exists p, nth_error ptrs (bu * xEls x + el) = Some (Some p)) /\
    (forall el c fa ad firstTs, fa < xElFas x -> nth_error out el = Some c -> nth_error (xElFaEl x) (el * xElFas x + fa) = Some (Some ad) ->
       exists bus cAd, buffersRead fl c fa firstTs = Ok bus /\ nth_error out ad = Some cAd /\
         forall bu, In bu bus -> In bu (buffersWritten fl cAd) /\ exists p, nth_error ptrs (bu * xEls x + ad) = Some (Some p)) /\
    (forall el c fa firstTs, nth_error out el = Some c -> fa < xElFas x -> nth_error (xElFaEl x) (el * xElFas x + fa) = Some None ->
       (forall tg, ~ commTg (xChs x) (xSendFa x) (xSendEl x) el fa tg) -> buffersRead fl c fa firstTs = Ok [0]).
Proof.
  intros W HF SY L LS CL R.
  destruct (C24_relations fl x (repeat 0%N (xEls x)) W HF (repeat_length _ _) R) as (out0 & E0 & L0 & F0 & G0 & _). rewrite repeat_length in L0.
  destruct (runAdd_ok fl x chars out0 L L0 E0) as (out & E & LO & O).
  destruct (C22_flex garbage (xEls x) 2 bSize [fElLt fl; fElGt fl] spSizes out eq_refl LS LO) as (mem & ptrs & EF & _ & P & _).
  assert (MB : forall m, In m (masks fl) -> exists b, m = (2 ^ b)%N) by apply HF.
  assert (Z : forall m el, In m (masks fl) -> ~ carries (repeat 0%N (xEls x)) m el).
  { intros m el Hm (c & Ec & H). pose proof (nth_error_In _ _ Ec) as H1. apply repeat_spec in H1. subst c. destruct (MB m Hm) as (b & ->). specialize (H b (N.pow2_bits_true b)). discriminate. }
  assert (CO : forall el c m, nth_error out el = Some c -> In m (masks fl) -> has c m = true <-> carries out0 m el).
  { intros el c m Ec Hm. assert (el < xEls x) by (rewrite <- LO; apply nth_error_Some; congruence).
    destruct (nth_error chars el) as [c1|] eqn:E1; [|apply nth_error_None in E1; lia]. destruct (nth_error out0 el) as [c2|] eqn:E2; [|apply nth_error_None in E2; lia].
    pose proof (O el c1 c2 E1 E2) as X. assert (c = N.lor c1 c2) as -> by congruence. rewrite has_lor_or by auto. rewrite (carries_has _ _ _ _ E2).
    destruct (has c1 m) eqn:H1; [|reflexivity]. exfalso. apply (CL el m Hm). now apply (carries_has _ _ _ _ E1). }
  assert (PT : forall el c bu, nth_error out el = Some c -> In bu (buffersWritten fl c) -> exists p, nth_error ptrs (bu * xEls x + el) = Some (Some p)).
  { intros el c bu Ec Hb. assert (HE : el < xEls x) by (rewrite <- LO; apply nth_error_Some; congruence). unfold buffersWritten in Hb.
    assert (DM : forall q, (q * xEls x + el) / xEls x = q /\ (q * xEls x + el) mod xEls x = el).
    { intros q. rewrite Nat.add_comm, Nat.div_add, Nat.mod_add, Nat.div_small, Nat.mod_small by lia. auto. }
    destruct Hb as [<-|Hb]; [|apply in_app_or in Hb as [Hb|Hb]].
    - apply P; [lia|]. left. lia.
    - destruct (has c (fElLt fl)) eqn:H; [|easy]. destruct Hb as [<-|[]]. apply P; [lia|]. right. split; [lia|]. destruct (DM 1) as (-> & ->). exists (fElLt fl). split; auto. now apply (carries_has _ _ _ _ Ec).
    - destruct (has c (fElGt fl)) eqn:H; [|easy]. destruct Hb as [<-|[]]. apply P; [lia|]. right. split; [lia|]. destruct (DM 2) as (-> & ->). exists (fElGt fl). split; auto. now apply (carries_has _ _ _ _ Ec). }
  assert (RDB : forall el c fa tg tgAd firstTs, nth_error out el = Some c -> inTg (xIn x) (xSe x) el tg -> tgBehind x el fa tgAd ->
     buffersRead fl c fa firstTs = Ok (if tg =? tgAd then [0] else if tgAd <? tg then [1] else if firstTs then [2] else [0; 2])).
  { intros el c fa tg tgAd firstTs Ec T B. pose proof (proj1 B) as Hfa. pose proof HF as (L1 & L2 & L3 & _). unfold buffersRead. rewrite (rd_ok _ _ 0%N), (rd_ok _ _ 0%N) by lia. cbn [bind]. f_equal.
    destruct (in_masks fl x HF fa Hfa) as (M1 & M2 & M3). destruct (F0 el fa tg tgAd T B) as (Q1 & Q2 & Q3).
    rewrite <- (CO el c _ Ec M1) in Q1. rewrite <- (CO el c _ Ec M3) in Q3. pose proof (Z _ el M1). pose proof (Z _ el M3).
    destruct (has c (nth fa (fAdEq fl) 0%N)), (has c (nth fa (fAdGt fl) 0%N)); destruct (Nat.eqb_spec tg tgAd); try tauto; try (destruct (Nat.ltb_spec tgAd tg); try tauto); auto.
    all: exfalso; intuition (congruence || lia). }
  exists out, mem, ptrs. split; auto. split; auto. split; [exact PT|]. split.
  - intros el c fa ad firstTs Hfa Ec Ead.
    assert (HE : el < xEls x) by (rewrite <- LO; apply nth_error_Some; congruence).
    assert (HA : ad < xEls x) by (destruct W as (_ & _ & W3 & _); eauto).
    destruct (C24_groups_defined x el W HE) as (tg & T & _). destruct (C24_groups_defined x ad W HA) as (ta & TA & _).
    assert (B : tgBehind x el fa ta) by (split; [auto|left; exists ad; auto]).
    destruct (SY el fa ad Hfa Ead) as (fa' & Hfa' & Eel).
    assert (B' : tgBehind x ad fa' tg) by (split; [auto|left; exists el; auto]).
    destruct (nth_error out ad) as [cAd|] eqn:Ea; [|apply nth_error_None in Ea; lia].
    eexists _, cAd. split; [apply (RDB el c fa tg ta firstTs Ec T B)|]. split; auto. intros bu Hb.
    assert (WR : In bu (buffersWritten fl cAd)); [|split; auto; eapply PT; eauto].
    destruct (G0 ad ta TA) as (_ & GL & GG). rewrite <- (CO ad cAd _ Ea) in GL by (unfold masks; cbn [app In]; tauto). rewrite <- (CO ad cAd _ Ea) in GG by (unfold masks; cbn [app In]; tauto). unfold buffersWritten.
    destruct (Nat.eqb_spec tg ta) as [Q|Q]; [destruct Hb as [<-|[]]; now left|].
    destruct (Nat.ltb_spec ta tg) as [Q'|Q'].
    + destruct Hb as [<-|[]]. replace (has cAd (fElLt fl)) with true by (symmetry; apply GL; right; exists fa', tg; auto). cbn; auto.
    + replace (has cAd (fElGt fl)) with true by (symmetry; apply GG; right; exists fa', tg; split; auto; lia).
      assert (bu = 0 \/ bu = 2) as [->| ->] by (destruct firstTs; cbn in Hb; intuition auto); [now left|]. right. apply in_or_app. right. now left.
  - intros el c fa firstTs Ec Hfa En NC.
    assert (HE : el < xEls x) by (rewrite <- LO; apply nth_error_Some; congruence).
    destruct (C24_groups_defined x el W HE) as (tg & T & _).
    rewrite (RDB el c fa tg tg firstTs Ec T); [now rewrite Nat.eqb_refl|]. split; auto.
Qed.
Print Assumptions C47_time_buffers.

(** Example: two groups with an inner and a send element each (elements 0, 1 inner, 2, 3 send); faces: 0-1, 1-3 (via groups 1
    and 1), 0-2; element 2 has a face of a channel to group 1 and element 3 one of a channel to group 1. *)
Definition ex_part : part := mkPart 4 3
  [Some 1; Some 2; None;  Some 0; Some 3; None;  Some 0; None; None;  None; Some 1; None]
  [1; 1] [1; 1] [mkChan 0 1 1 1; mkChan 1 1 1 1] [1; 0] [2; 3].

Lemma ader_flags_ok : flags_ok aderFlags 3.
Proof.
  split; [cbn; lia|]. split; [reflexivity|]. split; [reflexivity|]. split.
  - assert (H : forall l : list N, (fix nd l := match l with [] => true | y :: l => negb (existsb (N.eqb y) l) && nd l end) l = true -> NoDup l).
    { induction l as [|y l IH]; [constructor|]. intros H. apply andb_true_iff in H as (H1 & H2). constructor; auto. intros I. apply negb_true_iff in H1.
      assert (existsb (N.eqb y) l = true) by (apply existsb_exists; exists y; split; auto; apply N.eqb_refl). congruence. }
    apply H. vm_compute. reflexivity.
  - intros m Hm. exists (N.log2 m). assert (A : forallb (fun m => N.eqb m (2 ^ N.log2 m)) (masks aderFlags) = true) by (vm_compute; reflexivity).
    rewrite forallb_forall in A. now apply N.eqb_eq, A.
Qed.

Lemma ex_part_ok : part_ok ex_part.
Proof.
  split; [reflexivity|]. split; [reflexivity|]. split.
  - intros k ad H. cbn in H |- *. do 12 (destruct k as [|k]; [cbn in H; inversion H; lia|]). destruct k; discriminate.
  - split; [reflexivity|]. split; [reflexivity|]. split; [|split].
    + intros [|[|k]] e H; cbn in *; [injection H as <-; lia..|destruct k; discriminate].
    + intros [|[|k]] e H; cbn in *; [injection H as <-; lia..|destruct k; discriminate].
    + intros [|[|k]] [|[|k']] H H' X Y; cbn in *; auto; try lia; discriminate.
Qed.

Example C24_ex : part_ok ex_part /\ flags_ok aderFlags 3 /\
  (forall el fa tg tgAd, inTg (xIn ex_part) (xSe ex_part) el tg -> tgBehind ex_part el fa tgAd -> near tg tgAd) /\ symmetric ex_part /\
  runLts aderFlags ex_part [0; 0; 0; 0]%N = Ok (map (fold_right N.lor 0%N)
    [ [nth 0 (fAdLt aderFlags) 0; nth 1 (fAdEq aderFlags) 0; nth 2 (fAdEq aderFlags) 0; fElEq aderFlags; fElLt aderFlags];
      [nth 0 (fAdGt aderFlags) 0; nth 1 (fAdEq aderFlags) 0; nth 2 (fAdEq aderFlags) 0; fElEq aderFlags; fElGt aderFlags];
      [nth 0 (fAdEq aderFlags) 0; nth 1 (fAdLt aderFlags) 0; nth 2 (fAdEq aderFlags) 0; fElEq aderFlags; fElLt aderFlags];
      [nth 0 (fAdEq aderFlags) 0; nth 1 (fAdEq aderFlags) 0; nth 2 (fAdEq aderFlags) 0; fElEq aderFlags]])%N.
Proof.
  split; [apply ex_part_ok|]. split; [apply ader_flags_ok|]. split; [|split; [|vm_compute; reflexivity]].
  - intros el fa tg tgAd T B.
    assert (TG : forall e t, inTg (xIn ex_part) (xSe ex_part) e t -> t < 2) by (intros e t [(H & _)|(H & _)]; exact H).
    assert (tgAd < 2); [|pose proof (TG _ _ T); unfold near; lia].
    destruct B as (_ & [(ad & _ & H)|(_ & [(ch & c & i & H1 & _ & H2 & _)|(_ & H)])]); [now apply TG in H| |now apply TG in H].
    destruct ch as [|[|ch]]; cbn in H1; [inversion H1; subst c; cbn in H2; lia..|destruct ch; discriminate].
  - intros el fa ad Hfa H. cbn [xElFas ex_part xElFaEl] in *.
    assert (el < 4). { destruct (lt_dec el 4); auto. exfalso. assert (X : nth_error (xElFaEl ex_part) (el * 3 + fa) = None) by (apply nth_error_None; cbn; lia). cbn [xElFaEl ex_part] in X. congruence. }
    assert (CK : forallb (fun el => forallb (fun fa => match nth_error (xElFaEl ex_part) (el * 3 + fa) with
        | Some (Some ad) => existsb (fun fa' => match nth_error (xElFaEl ex_part) (ad * 3 + fa') with Some (Some e) => e =? el | _ => false end) (seq 0 3) | _ => true end) (seq 0 3)) (seq 0 4) = true) by (vm_compute; reflexivity).
    rewrite forallb_forall in CK. specialize (CK el ltac:(apply in_seq; lia)). rewrite forallb_forall in CK. specialize (CK fa ltac:(apply in_seq; lia)).
    cbn [xElFaEl ex_part] in CK. rewrite H in CK. apply existsb_exists in CK as (fa' & F1 & F2). exists fa'. split; [apply in_seq in F1; lia|].
    destruct (nth_error _ (ad * 3 + fa')) as [[e|]|]; try discriminate. apply Nat.eqb_eq in F2. now subst e.
Qed.

(** * C48: sparse types of domains *)

(** A point is inside of a domain if it is inside of all its objects. *)
Definition insideDom {V O} (inside : O -> V -> bool) (objs : list O) (pt : V) : Prop := forall o, In o objs -> inside o pt = true.

(** All vertices of entity [en] are inside of the domain. *)
Definition entInside {V O} (inside : O -> V -> bool) (objs : list O) (veChars : list V) (enVe : list (list nat)) (en : nat) : Prop :=
  forall ves v pt, nth_error enVe en = Some ves -> In v ves -> nth_error veChars v = Some pt -> insideDom inside objs pt.

Lemma domInside_spec {V O} (inside : O -> V -> bool) objs pt : domInside inside objs pt = true <-> insideDom inside objs pt.
Proof.
  unfold insideDom. induction objs as [|o objs IH]; cbn [domInside]; [split; auto; intros _ o []|]. destruct (inside o pt) eqn:E.
  - rewrite IH. split; [intros H o' [<-|H']; auto|intros H o' H'; apply H; now right].
  - split; [discriminate|]. intros H. rewrite <- E. apply H. now left.
Qed.

Lemma allInside_ok {V O} (inside : O -> V -> bool) objs veChars ves : (forall v, In v ves -> v < length veChars) ->
  exists b, allInside (domInside inside objs) veChars ves = Ok b /\
    (b = true <-> forall v pt, In v ves -> nth_error veChars v = Some pt -> insideDom inside objs pt).
Proof.
  induction ves as [|v ves IH]; intros H; cbn [allInside].
  - exists true. split; auto. split; auto. intros _ v pt [].
  - destruct (nth_error veChars v) as [pt|] eqn:E; [|apply nth_error_None in E; specialize (H v ltac:(now left)); lia]. rewrite (rd_some _ _ _ E). cbn [bind].
    destruct (domInside inside objs pt) eqn:D.
    + destruct IH as (b & Eb & B); [intros; apply H; now right|]. exists b. split; auto. rewrite B. apply domInside_spec in D. split.
      * intros X v' pt' [<-|H'] E'; [assert (pt' = pt) as -> by congruence; auto|eauto].
      * intros X v' pt' H'. apply X. now right.
    + exists false. split; auto. split; [discriminate|]. intros X. rewrite <- D. apply domInside_spec. apply (X v); auto. now left.
Qed.

(** A bit of an entity's sparse type is set afterwards iff it was set before, or is a bit of the type of a domain which contains
    all vertices of the entity. *)
Theorem C48_domain_types {V O} (inside : O -> V -> bool) nEnts enVe spTypes doms veChars chars :
  length enVe = nEnts -> length chars = nEnts -> length spTypes = length doms ->
  (forall en ves v, nth_error enVe en = Some ves -> In v ves -> v < length veChars) ->
  exists out, setSpTypes nEnts enVe spTypes (map (domInside inside) doms) veChars chars = Ok out /\ length out = nEnts /\
    forall en c c', nth_error chars en = Some c -> nth_error out en = Some c' -> forall b,
      N.testbit c' b = true <-> N.testbit c b = true \/
        exists d objs t, nth_error doms d = Some objs /\ nth_error spTypes d = Some t /\ N.testbit t b = true /\ entInside inside objs veChars enVe en.
Proof.
  intros LE LC LT HV. unfold setSpTypes.
  pose (good := fun en k c c' => forall b, N.testbit c' b = true <-> N.testbit c b = true \/
        exists d objs t, d < k /\ nth_error doms d = Some objs /\ nth_error spTypes d = Some t /\ N.testbit t b = true /\ entInside inside objs veChars enVe en).
  match goal with |- exists out, for_ 0 nEnts ?f chars = Ok out /\ _ =>
    destruct (for_ok (fun en s => length s = nEnts /\ (forall e, en <= e -> nth_error s e = nth_error chars e) /\
     forall e c c', e < en -> nth_error chars e = Some c -> nth_error s e = Some c' -> good e (length doms) c c') 0 nEnts f chars) as (out & E & I1 & I2 & I3); [lia| | |] end.
  - split; auto. split; auto. intros; lia.
  - intros en s Hen (I1 & I2 & I3). destruct (nth_error chars en) as [c|] eqn:Ec; [|apply nth_error_None in Ec; lia].
    match goal with |- exists s', for_ 0 ?n ?f s = Ok s' /\ _ =>
      destruct (for_ok (fun k s' => exists c', s' = upd s en c' /\ good en k c c') 0 n f s) as (s' & E & c' & -> & G); [lia| | |] end.
    + exists c. split; [rewrite upd_same; auto; rewrite I2; auto|]. intros b. split; auto. intros [H|(d & ? & ? & H & _)]; [auto|lia].
    + rewrite map_length. intros d s' Hd (c' & -> & G). cbv beta. destruct (nth_error doms d) as [objs|] eqn:Ed; [|apply nth_error_None in Ed; lia].
      rewrite (rd_some _ _ (domInside inside objs)) by now apply map_nth_error. cbn [bind].
      destruct (nth_error enVe en) as [ves|] eqn:Ev; [|apply nth_error_None in Ev; lia]. rewrite (rd_some _ _ _ Ev). cbn [bind].
      destruct (allInside_ok inside objs veChars ves (fun v => HV en ves v Ev)) as (b & Eb & B). rewrite Eb. cbn [bind].
      assert (EI : entInside inside objs veChars enVe en <-> b = true).
      { rewrite B. unfold entInside. split; [intros H v pt; apply (H ves v pt Ev)|intros H ves' v pt E'; rewrite Ev in E'; inversion E'; subst; eauto]. }
      destruct (nth_error spTypes d) as [t|] eqn:Et; [|apply nth_error_None in Et; lia].
      assert (SPL : forall bt, (exists d0 objs t, d0 < S d /\ nth_error doms d0 = Some objs /\ nth_error spTypes d0 = Some t /\ N.testbit t bt = true /\ entInside inside objs veChars enVe en) <->
         (exists d0 objs t, d0 < d /\ nth_error doms d0 = Some objs /\ nth_error spTypes d0 = Some t /\ N.testbit t bt = true /\ entInside inside objs veChars enVe en) \/ (N.testbit t bt = true /\ b = true)).
      { intros bt. rewrite <- EI. split.
        - intros (d0 & o0 & t0 & X1 & X2 & X3 & X4 & X5). destruct (Nat.eq_dec d0 d) as [->|N]; [right; assert (o0 = objs) as -> by congruence; assert (t0 = t) as -> by congruence; auto|left; exists d0, o0, t0; repeat split; auto; lia].
        - intros [(d0 & o0 & t0 & X1 & X)|(X4 & X5)]; [exists d0, o0, t0; split; [lia|auto]|exists d, objs, t; repeat split; auto]. }
      destruct b.
      * rewrite (rd_some _ _ _ Et). cbn [bind]. rewrite (rd_some _ _ c') by (apply nth_error_upd_eq; lia). cbn [bind]. rewrite wr_ok by (rewrite length_upd; lia). rewrite upd_upd.
        eexists. split; [reflexivity|]. exists (N.lor c' t). split; auto. intros bt. rewrite N.lor_spec, orb_true_iff, (G bt), SPL. tauto.
      * eexists. split; [reflexivity|]. exists c'. split; auto. intros bt. rewrite (G bt), SPL. intuition discriminate.
    + rewrite map_length in G. rewrite E. eexists. split; [reflexivity|]. split; [now rewrite length_upd|]. split.
      * intros e He. rewrite nth_error_upd_ne by lia. apply I2. lia.
      * intros e c0 c1 He H0 H1. destruct (Nat.eq_dec e en) as [->|N].
        -- rewrite nth_error_upd_eq in H1 by lia. assert (c0 = c) as -> by congruence. inversion H1; subst; auto.
        -- rewrite nth_error_upd_ne in H1 by lia. apply I3; auto. lia.
  - exists out. split; [exact E|]. split; auto. intros en c c' Hc Hc' b. assert (LT' : en < nEnts) by (rewrite <- LC; apply nth_error_Some; congruence). pose proof (I3 en c c' LT' Hc Hc' b) as X. rewrite X.
    split; (intros [H|(d & o & t & H)]; [auto|right; exists d, o, t]); [tauto|]. split; [apply nth_error_Some; destruct H as (H & _); congruence|auto].
Qed.
Print Assumptions C48_domain_types.

(** Half-spaces: a point which is a convex combination of points (the vertices of an entity) inside of the half-space is inside
    as well; thus all of an entity is inside of a domain if its vertices are. *)
Theorem C48_convex tol h dim (pts : list (list Q)) (ws : list Q) (pt : list Q) :
  length (hsOrigin h) = dim -> length (hsNormal h) = dim -> length pt = dim -> (forall p, In p pts -> length p = dim) -> length ws = length pts ->
  (forall w, In w ws -> 0 <= w)%Q -> (fold_right Qplus 0 ws == 1)%Q ->
  (forall d, (d < dim)%nat -> nth d pt 0 == fold_right Qplus 0 (map (fun wp => fst wp * nth d (snd wp) 0) (combine ws pts)))%Q ->
  (forall p, In p pts -> hsInside tol h p = true) -> hsInside tol h pt = true.
Proof.
  destruct h as [o n]. cbn [hsOrigin hsNormal]. intros LO LN LP LPS LW W0 W1 EQ IN.
  pose (lin := fun f : list Q -> Q => fold_right Qplus 0%Q (map (fun wp => fst wp * f (snd wp))%Q (combine ws pts))).
  assert (LINP : forall f g, (lin (fun p => f p + g p) == lin f + lin g)%Q).
  { intros f g. unfold lin. generalize (combine ws pts). induction l as [|a l IH]; cbn [map fold_right]; [reflexivity|]. rewrite IH. ring. }
  assert (LINM : forall k f, (lin (fun p => k * f p) == k * lin f)%Q).
  { intros k f. unfold lin. generalize (combine ws pts). induction l as [|a l IH]; cbn [map fold_right]; [ring|]. rewrite IH. ring. }
  assert (LINE : forall f g, (forall p, In p pts -> (f p == g p)%Q) -> (lin f == lin g)%Q).
  { intros f g H. unfold lin. assert (H' : forall wp, In wp (combine ws pts) -> (f (snd wp) == g (snd wp))%Q) by (intros (w & p) X; apply in_combine_r in X; cbn; auto).
    revert H'. generalize (combine ws pts). induction l as [|a l IH]; cbn [map fold_right]; intros H'; [reflexivity|]. rewrite IH by (intros; apply H'; now right). rewrite (H' a) by now left. reflexivity. }
  assert (LINC : forall k, (lin (fun _ => k) == k)%Q).
  { intros k. unfold lin. assert (X : (fold_right Qplus 0 (map (fun wp : Q * list Q => fst wp * k) (combine ws pts)) == k * fold_right Qplus 0 ws)%Q).
    { clear - LW. revert pts LW. induction ws as [|w ws' IH]; intros [|p pts'] L; cbn [combine map fold_right fst] in *; try discriminate; [ring|]. rewrite IH by (cbn in L; lia). ring. }
    rewrite X, W1. ring. }
  assert (SP : forall k (nn oo pp : list Q), length nn = k -> length oo = k -> length pp = k -> (sprod nn (vsub pp oo) == sprod nn pp - sprod nn oo)%Q).
  { induction k as [|k IH]; intros [|n0 nn] [|o0 oo] [|p0 pp] A B C; try discriminate; cbn [sprod vsub]; [ring|]. rewrite IH by (cbn in *; lia). ring. }
  assert (DOT : (sprod n pt == lin (sprod n))%Q).
  { assert (G : forall (nn pp : list Q) j, length pp = length nn -> (forall d, d < length nn -> (nth d pp 0 == lin (fun p => nth (j + d) p 0))%Q) -> (forall p, In p pts -> length p = j + length nn) ->
      (sprod nn pp == lin (fun p => sprod nn (skipn j p)))%Q).
    { induction nn as [|n0 nn IH]; intros [|p0 pp] j A B C; try discriminate.
      - symmetry. transitivity (lin (fun _ => 0%Q)); [apply LINE; intros; reflexivity|apply LINC].
      - cbn [sprod]. rewrite (IH pp (S j)).
        + pose proof (B 0 ltac:(cbn; lia)) as B0. cbn [nth] in B0. rewrite B0. rewrite <- LINM, <- LINP. apply LINE. intros p Hp.
          specialize (C p Hp). cbn [length] in C. destruct (skipn_cons j p ltac:(lia)) as (y & Y1 & Y2). rewrite Y2. cbn [sprod]. rewrite Nat.add_0_r, (nth_error_nth _ _ _ Y1). now rewrite Nat.add_1_r.
        + cbn in A. lia.
        + intros d Hd. specialize (B (S d) ltac:(cbn; lia)). cbn [nth] in B. rewrite B. apply LINE. intros p _. now replace (j + S d) with (S j + d) by lia.
        + intros p Hp. specialize (C p Hp). cbn in C. lia. }
    apply (G n pt 0); [lia| |].
    - intros d Hd. apply EQ. lia.
    - intros p Hp. rewrite (LPS p Hp). lia. }
  assert (IN' : forall p, In p pts -> (tol < sprod n p - sprod n o)%Q).
  { intros p Hp. specialize (IN p Hp). unfold hsInside in IN. cbn [hsNormal hsOrigin] in IN. apply negb_true_iff in IN. rewrite <- (SP dim n o p LN LO (LPS p Hp)).
    destruct (Qlt_le_dec tol (sprod n (vsub p o))) as [X|X]; auto. apply Qle_bool_iff in X. congruence. }
  unfold hsInside. cbn [hsNormal hsOrigin]. apply negb_true_iff. destruct (Qle_bool _ tol) eqn:Z; auto. exfalso. apply Qle_bool_iff in Z. rewrite (SP dim n o pt LN LO LP) in Z.
  assert (POS : (0 < lin (fun p => sprod n p - sprod n o - tol))%Q).
  { unfold lin. clear - IN' W0 W1 LW. revert pts LW IN'. assert (NZ : ~ (fold_right Qplus 0 ws == 0)%Q) by (rewrite W1; discriminate). clear W1. induction ws as [|w ws' IH]; intros [|p pts'] L IN'; cbn [combine map fold_right fst snd] in *; try discriminate.
    - exfalso. apply NZ. reflexivity.
    - assert (P : (0 < sprod n p - sprod n o - tol)%Q) by (specialize (IN' p ltac:(now left)); apply Qlt_minus_iff in IN'; exact IN').
      assert (WN : (0 <= w)%Q) by (apply W0; now left).
      assert (R : (0 <= fold_right Qplus 0 (map (fun wp : Q * list Q => fst wp * (sprod n (snd wp) - sprod n o - tol)) (combine ws' pts')))%Q).
      { assert (R' : forall wp, In wp (combine ws' pts') -> (0 <= fst wp * (sprod n (snd wp) - sprod n o - tol))%Q).
        { intros (w' & p') X. cbn [fst snd]. apply Qmult_le_0_compat; [apply W0; right; eapply in_combine_l; eauto|]. specialize (IN' p' ltac:(right; eapply in_combine_r; eauto)). apply Qlt_minus_iff in IN'. apply Qlt_le_weak. exact IN'. }
        revert R'. generalize (combine ws' pts'). induction l as [|a l IHl]; intros R'; cbn [map fold_right]; [apply Qle_refl|].
        apply (Qplus_le_compat 0 _ 0); [apply R'; now left|apply IHl; intros; apply R'; now right]. }
      destruct (Qlt_le_dec 0 w) as [WP|WZ].
      + apply (Qplus_lt_le_compat 0 _ 0); auto. apply Qmult_lt_0_compat; auto.
      + assert (WE : (w == 0)%Q) by (apply Qle_antisym; auto). rewrite WE, Qmult_0_l, Qplus_0_l. apply IH; auto.
        * intros w' Hw'. apply W0. now right.
        * intros X. apply NZ. rewrite X, WE. reflexivity.
        * intros p' Hp'. apply IN'. now right. }
  assert (LS : (lin (fun p => sprod n p - sprod n o - tol) == sprod n pt - sprod n o - tol)%Q).
  { rewrite DOT. transitivity (lin (fun p => sprod n p + (- sprod n o - tol))%Q); [apply LINE; intros; ring|]. rewrite LINP, LINC. ring. }
  rewrite LS in POS. apply (Qlt_not_le _ _ POS). apply (Qplus_le_l _ _ tol). ring_simplify. ring_simplify in Z. exact Z.
Qed.
Print Assumptions C48_convex.

(** Example: the triangle with the vertices (0,0), (1,0), (0,1) is inside of the domain x > -1/2, but (2,0) is not in x < 3/2. *)
Example C48_ex :
  let dom1 := [mkHs [-1#2; 0]%Q [1; 0]%Q] in
  let dom2 := [mkHs [-1#2; 0]%Q [1; 0]%Q; mkHs [3#2; 0]%Q [-1; 0]%Q] in
  setSpTypes 2 [[0; 1; 2]; [0; 2; 3]] [4; 8]%N (map (domInside (hsInside (-1#1000000)%Q)) [dom1; dom2]) [[0;0]; [1;0]; [0;1]; [2;0]]%Q [1; 1]%N = Ok [13; 5]%N.
Proof. vm_compute. reflexivity. Qed.

Example C48_convex_ex : hsInside (-1#1000000)%Q (mkHs [-1#2; 0]%Q [1; 0]%Q) [1#2; 1#4]%Q = true.
Proof.
  apply (C48_convex _ _ 2 [[0; 0]; [1; 0]; [1; 1]]%Q [1#2; 1#4; 1#4]%Q); try reflexivity.
  - intros p [<-|[<-|[<-|[]]]]; reflexivity.
  - intros w [<-|[<-|[<-|[]]]]; discriminate.
  - intros [|[|d]] H; [reflexivity..|lia].
  - intros p [<-|[<-|[<-|[]]]]; reflexivity.
Qed.
