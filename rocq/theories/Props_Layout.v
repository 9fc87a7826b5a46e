(** Properties of the memory and data layout: C22, C23, C44. *)
From Verif Require Import Util Sparse SharedProofs Layout.

(** * C23: entity layouts *)

(** All owned regions: inner regions of the time groups, followed by their send regions. *)
Definition ownRgns (l : lay) : list rgn := map tInner (lTgs l) ++ concat (map tSend (lTgs l)).

Definition inside (r : rgn) (en : nat) : Prop := rFirst r <= en < rFirst r + rSize r.

(** The regions start at [b], follow one another without gaps and end at [e]. *)
Fixpoint tiles (b : nat) (rs : list rgn) (e : nat) : Prop :=
  match rs with [] => b = e | r :: rs => rFirst r = b /\ tiles (b + rSize r) rs e end.

Definition sizes (g : tgrp) := (rSize (tInner g), map rSize (tSend g), map rSize (tRecv g)).

Lemma tiles_app rs rs' : forall b m e, tiles b rs m -> tiles m rs' e -> tiles b (rs ++ rs') e.
Proof.
  induction rs as [|r rs IH]; cbn; intros b m e H H'; [now subst|]. destruct H as (? & H). split; auto. now apply IH with m.
Qed.

Lemma tiles_le rs : forall b e, tiles b rs e -> b <= e.
Proof. induction rs as [|r rs IH]; cbn; intros b e H; [lia|]. destruct H as (_ & H). apply IH in H. lia. Qed.

Lemma tiles_partition rs : forall b e en, tiles b rs e -> b <= en < e -> exists! k, exists r, nth_error rs k = Some r /\ inside r en.
Proof.
  induction rs as [|r rs IH]; cbn [tiles]; intros b e en H Hen; [lia|]. destruct H as (<- & H).
  destruct (lt_dec en (rFirst r + rSize r)) as [L|L].
  - exists 0. split; [exists r; split; [reflexivity|unfold inside; lia]|].
    intros [|k] (r' & E & I); auto. exfalso. cbn in E. clear IH Hen. unfold inside in I.
    revert k E H. generalize (rFirst r + rSize r) L. clear L. induction rs as [|x rs IH]; intros b L k E H; [destruct k; discriminate|].
    cbn [tiles] in H. destruct H as (X & H). destruct k as [|k]; cbn in E; [injection E as ->; lia|]. apply (IH (b + rSize x)) in E; auto. lia.
  - destruct (IH _ _ en H ltac:(lia)) as (k & (r' & E & I) & U). exists (S k). split; [exists r'; auto|].
    intros [|k'] (r2 & E2 & I2); [cbn in E2; injection E2 as <-; unfold inside in I2; lia|]. f_equal. apply U. exists r2. auto.
Qed.

Lemma tiles_in rs : forall b e r, tiles b rs e -> In r rs -> b <= rFirst r /\ rFirst r + rSize r <= e.
Proof.
  induction rs as [|x rs IH]; cbn [tiles]; intros b e r H HI; [destruct HI|]. destruct H as (<- & H). destruct HI as [->|HI].
  - apply tiles_le in H. lia.
  - destruct (IH _ _ _ H HI). lia.
Qed.

Lemma initTgs_ok tgs : (forall g, In g tgs -> length (tSend g) = length (tRecv g)) ->
  exists tgs', initTgs tgs = Ok tgs' /\ map sizes tgs' = map sizes tgs /\ Forall (fun g => tOwn g = 0) tgs'.
Proof.
  induction tgs as [|g tgs IH]; intros H; cbn [initTgs]; [exists []; auto|].
  unfold check. rewrite (proj2 (Nat.eqb_eq _ _)) by (apply H; left; auto). cbn [bind].
  destruct IH as (tgs' & E & S & F); [intros; apply H; now right|]. rewrite E. cbn [bind]. eexists. split; [reflexivity|]. split.
  - cbn [map]. rewrite S. f_equal. unfold sizes. cbn [tInner tSend tRecv rSize]. now rewrite !map_map.
  - constructor; auto.
Qed.

Lemma setInner_ok tgs : forall off off' tgs', setInner off tgs = (off', tgs') ->
  tiles off (map tInner tgs') off' /\ map sizes tgs' = map sizes tgs /\ map tSend tgs' = map tSend tgs /\
  (Forall (fun g => tOwn g = 0) tgs -> Forall (fun g => tOwn g = rSize (tInner g)) tgs').
Proof.
  induction tgs as [|g tgs IH]; intros off off' tgs' E; cbn [setInner] in E.
  - injection E as <- <-. cbn. auto.
  - destruct (setInner (off + rSize (tInner g)) tgs) as (o1 & t1) eqn:E1. injection E as <- <-.
    destruct (IH _ _ _ E1) as (T & S & M & F). cbn [map tInner tSend tiles rFirst rSize]. repeat split; auto.
    + f_equal; auto.
    + f_equal; auto.
    + intros H. inversion H; subst. constructor; [cbn; lia|auto].
Qed.

Lemma setSendRgns_ok rs : forall off own off' own' rs', setSendRgns off own rs = (off', own', rs') ->
  tiles off rs' off' /\ map rSize rs' = map rSize rs /\ own' = own + list_sum (map rSize rs).
Proof.
  induction rs as [|r rs IH]; intros off own off' own' rs' E; cbn [setSendRgns] in E.
  - injection E as <- <- <-. cbn. repeat split; auto.
  - destruct (setSendRgns (off + rSize r) (own + rSize r) rs) as ((o1 & w1) & r1) eqn:E1. injection E as <- <- <-.
    destruct (IH _ _ _ _ _ E1) as (T & M & W). cbn [tiles map rFirst rSize]. rewrite list_sum_cons. repeat split; auto; [now f_equal|lia].
Qed.

Lemma setSend_ok tgs : forall off off' tgs', setSend off tgs = (off', tgs') ->
  tiles off (concat (map tSend tgs')) off' /\ map sizes tgs' = map sizes tgs /\ map tInner tgs' = map tInner tgs /\
  (Forall (fun g => tOwn g = rSize (tInner g)) tgs -> Forall (fun g => tOwn g = rSize (tInner g) + list_sum (map rSize (tSend g))) tgs').
Proof.
  induction tgs as [|g tgs IH]; intros off off' tgs' E; cbn [setSend] in E.
  - injection E as <- <-. cbn. auto.
  - destruct (setSendRgns off (tOwn g) (tSend g)) as ((o1 & w1) & r1) eqn:E1. destruct (setSend o1 tgs) as (o2 & t2) eqn:E2. injection E as <- <-.
    destruct (setSendRgns_ok _ _ _ _ _ _ E1) as (T1 & M1 & W1). destruct (IH _ _ _ E2) as (T & S & M & F).
    cbn [map tInner tSend concat]. repeat split.
    + apply tiles_app with o1; auto.
    + f_equal; auto. unfold sizes. cbn [tInner tSend tRecv]. now rewrite M1.
    + f_equal; auto.
    + intros H. inversion H; subst. constructor; [cbn [tOwn tInner tSend]; rewrite M1; lia|auto].
Qed.

(** sizesToLayout keeps the sizes of all regions and gives the owned regions consecutive ranges: every entity id below the
    number of entities is in exactly one region. *)
Theorem C23_layout_partitions l :
  (forall g, In g (lTgs l) -> length (tSend g) = length (tRecv g)) ->
  exists l', sizesToLayout l = Ok l' /\
    map sizes (lTgs l') = map sizes (lTgs l) /\
    (forall en, en < lEnts l' -> exists! k, exists r, nth_error (ownRgns l') k = Some r /\ inside r en) /\
    (forall r en, In r (ownRgns l') -> inside r en -> en < lEnts l') /\
    lEnts l' = list_sum (map tOwn (lTgs l')) /\
    (forall g, In g (lTgs l') -> tOwn g = rSize (tInner g) + list_sum (map rSize (tSend g))).
Proof.
  intros H. destruct (initTgs_ok _ H) as (t0 & E0 & S0 & F0). unfold sizesToLayout. rewrite E0. cbn [bind].
  destruct (setInner 0 t0) as (o1 & t1) eqn:E1. destruct (setSend o1 t1) as (o2 & t2) eqn:E2.
  destruct (setInner_ok _ _ _ _ E1) as (T1 & S1 & _ & F1). destruct (setSend_ok _ _ _ _ E2) as (T2 & S2 & M2 & F2).
  exists (mkLay o2 t2). split; [reflexivity|]. cbn [lEnts lTgs].
  assert (T : tiles 0 (ownRgns (mkLay o2 t2)) o2) by (apply tiles_app with o1; cbn [lTgs]; [now rewrite M2|auto]).
  specialize (F2 (F1 F0)). rewrite Forall_forall in F2.
  split; [congruence|]. split; [intros; now apply tiles_partition with 0 o2; [|lia]|].
  split; [intros r en HI [_ Hr]; destruct (tiles_in _ _ _ _ T HI); lia|]. split; auto.
  (* number of entities *)
  assert (SUM : forall rs b e, tiles b rs e -> e = b + list_sum (map rSize rs)).
  { induction rs as [|r rs IH]; cbn [tiles map]; intros b e X; [cbn; lia|]. destruct X as (_ & X). apply IH in X. rewrite list_sum_cons. lia. }
  apply SUM in T. rewrite T at 1. unfold ownRgns. cbn [lTgs]. rewrite map_app, list_sum_app, map_map. cbn [Nat.add]. clear - F2.
  induction t2 as [|g t2 IH]; [reflexivity|]. cbn [map concat]. rewrite map_app, !list_sum_cons, list_sum_app, (F2 g (or_introl eq_refl)).
  rewrite <- IH by (intros; apply F2; now right). lia.
Qed.
Print Assumptions C23_layout_partitions.

(** The layout of the elements: time group [tg] has its inner elements behind those of the lower groups, and its send elements
    behind all inner elements and the send elements of the lower groups. *)
Theorem C23_element_layout nIn nSe : length nIn = length nSe ->
  exists l, setElLayout nIn nSe = Ok l /\ lEnts l = list_sum nIn + list_sum nSe /\ length (lTgs l) = length nIn /\
    forall tg g, nth_error (lTgs l) tg = Some g ->
      tInner g = mkRgn (list_sum (firstn tg nIn)) (nth tg nIn 0) /\
      tSend g = [mkRgn (list_sum nIn + list_sum (firstn tg nSe)) (nth tg nSe 0)] /\
      tOwn g = nth tg nIn 0 + nth tg nSe 0.
Proof.
  intros HL. unfold setElLayout, sizesToLayout. cbn [lTgs].
  set (mk := fun p : nat * nat => let '(i, s) := p in mkTg 0 0 (mkRgn 0 i) [mkRgn 0 s] [mkRgn 0 0]).
  assert (E0 : forall ps, initTgs (map mk ps) = Ok (map mk ps)).
  { induction ps as [|(i, s) ps IH]; [reflexivity|]. cbn [map initTgs mk tSend tRecv length Nat.eqb check bind]. fold mk. rewrite IH. reflexivity. }
  rewrite E0. cbn [bind].
  assert (E1 : forall ps off, exists t, setInner off (map mk ps) = (off + list_sum (map fst ps), t) /\ length t = length ps /\
    forall tg, tg < length ps -> nth_error t tg = Some (mkTg (fst (nth tg ps (0, 0))) 0 (mkRgn (off + list_sum (firstn tg (map fst ps))) (fst (nth tg ps (0, 0))))
      [mkRgn 0 (snd (nth tg ps (0, 0)))] [mkRgn 0 0])).
  { induction ps as [|(i, s) ps IH]; intros off; cbn [map setInner mk tInner rSize].
    - exists []. cbn. rewrite Nat.add_0_r. repeat split. intros; lia.
    - destruct (IH (off + i)) as (t & E & L & N). fold mk. rewrite E. eexists. split; [rewrite list_sum_cons, Nat.add_assoc; reflexivity|]. cbn [length]. split; [lia|].
      intros [|tg] Htg; cbn [nth_error nth firstn tOwn tNotOwn tSend tRecv fst].
      + change (list_sum []) with 0. rewrite Nat.add_0_r. reflexivity.
      + rewrite N by lia. rewrite list_sum_cons, Nat.add_assoc. reflexivity. }
  destruct (E1 (combine nIn nSe) 0) as (t1 & F1 & L1 & N1). rewrite F1.
  assert (E2 : forall t off, Forall (fun g => length (tSend g) = 1) t -> exists t', setSend off t = (off + list_sum (map (fun g => list_sum (map rSize (tSend g))) t), t') /\
    length t' = length t /\ forall tg g, nth_error t tg = Some g -> nth_error t' tg = Some (mkTg (tOwn g + list_sum (map rSize (tSend g))) (tNotOwn g) (tInner g)
       [mkRgn (off + list_sum (firstn tg (map (fun g => list_sum (map rSize (tSend g))) t))) (list_sum (map rSize (tSend g)))] (tRecv g))).
  { induction t as [|g t IH]; intros off HF; cbn [setSend].
    - exists []. cbn. rewrite Nat.add_0_r. repeat split. intros [|?]; discriminate.
    - inversion HF as [|? ? HG HF']; subst. destruct g as [ow no inn se re]. cbn [tSend] in *. destruct se as [|r [|? ?]]; try discriminate.
      destruct (IH (off + rSize r) HF') as (t' & E & L & N). cbn [setSendRgns tOwn map tSend]. rewrite E. eexists. split; [|split].
      + cbn [map tSend]. rewrite !list_sum_cons. change (list_sum []) with 0. rewrite Nat.add_0_r, Nat.add_assoc. reflexivity.
      + cbn [length]. lia.
      + intros [|tg] g' Hg; cbn [nth_error firstn map tSend] in *.
        * injection Hg as <-. cbn [tOwn tNotOwn tInner tSend tRecv map]. rewrite !list_sum_cons. change (list_sum []) with 0. rewrite !Nat.add_0_r. reflexivity.
        * rewrite (N tg g' Hg). rewrite (list_sum_cons (list_sum [rSize r])), (list_sum_cons (rSize r)). change (list_sum []) with 0. rewrite (Nat.add_0_r (rSize r)), Nat.add_assoc. reflexivity. }
  assert (HS : Forall (fun g => length (tSend g) = 1) t1).
  { apply Forall_forall. intros g Hg. apply In_nth_error in Hg as (k & Hk). assert (Lk : k < length t1) by (apply nth_error_Some; congruence).
    rewrite N1 in Hk by lia. injection Hk as <-. reflexivity. }
  destruct (E2 t1 (0 + list_sum (map fst (combine nIn nSe))) HS) as (t2 & F2 & L2 & N2). rewrite F2.
  eexists. split; [reflexivity|]. cbn [lEnts lTgs].
  assert (MF : map fst (combine nIn nSe) = nIn) by (clear - HL; revert nSe HL; induction nIn; intros [|? ?] HL; cbn in *; try discriminate; auto; f_equal; auto).
  assert (MS : map snd (combine nIn nSe) = nSe) by (clear - HL; revert nSe HL; induction nIn; intros [|? ?] HL; cbn in *; try discriminate; auto; f_equal; auto).
  assert (LC : length (combine nIn nSe) = length nIn) by (rewrite combine_length; lia).
  assert (MS2 : map (fun g => list_sum (map rSize (tSend g))) t1 = nSe).
  { rewrite <- MS. apply nth_error_ext'. intros k. destruct (lt_dec k (length nIn)) as [Lk|Lk].
    - rewrite !nth_error_map, N1 by lia. rewrite (nth_error_nth' _ (0, 0)) by lia. cbn [option_map tSend map rSize]. rewrite list_sum_cons. change (list_sum []) with 0. f_equal. lia.
    - rewrite (proj2 (nth_error_None _ _)) by (rewrite map_length; lia). rewrite (proj2 (nth_error_None _ _)) by (rewrite map_length; lia). reflexivity. }
  rewrite MS2, MF in *. split; [lia|]. split; [lia|].
  intros tg g Hg. assert (Ltg : tg < length nIn) by (rewrite <- LC, <- L1, <- L2; apply nth_error_Some; congruence).
  rewrite (N2 tg _ (N1 tg ltac:(lia))) in Hg. injection Hg as <-. cbn [tInner tSend tOwn map rSize].
  rewrite combine_nth by auto. cbn [fst snd]. rewrite ?Nat.add_0_r. repeat split.
Qed.
Print Assumptions C23_element_layout.

Example C23_ex : sizesToLayout (mkLay 99 [mkTg 7 7 (mkRgn 9 3) [mkRgn 1 2; mkRgn 1 0] [mkRgn 0 5; mkRgn 0 1]; mkTg 7 7 (mkRgn 9 1) [mkRgn 1 4] [mkRgn 8 2]]) =
  Ok (mkLay 10 [mkTg 5 0 (mkRgn 0 3) [mkRgn 4 2; mkRgn 6 0] [mkRgn 0 5; mkRgn 0 1]; mkTg 5 0 (mkRgn 3 1) [mkRgn 6 4] [mkRgn 0 2]]).
Proof. reflexivity. Qed.

(** * C22: flexible data *)

(** Chunk [k] of the memory: chunks [0, nEn) hold the base data of the entities, chunks nEn*(st+1) + en their data for sparse
    type [st]. *)
Definition chunkSize (nEn bSize : nat) (spSizes : list nat) (k : nat) : nat :=
  if k <? nEn then bSize else nth (k / nEn - 1) spSizes 0.

(** Does the entity have the chunk? *)
Definition hasChunk (nEn : nat) (spTypes chars : list N) (k : nat) : Prop :=
  k < nEn \/ nEn <= k /\ exists t, nth_error spTypes (k / nEn - 1) = Some t /\ carries chars t (k mod nEn).

Fixpoint sumf (n : nat) (f : nat -> nat) : nat := match n with 0 => 0 | S n => sumf n f + f n end.

Lemma sumf_ext n f g : (forall i, i < n -> f i = g i) -> sumf n f = sumf n g.
Proof. induction n as [|n IH]; cbn; intros H; auto. rewrite IH, H; auto. Qed.

Lemma sumf_add n f g : sumf n (fun i => f i + g i) = sumf n f + sumf n g.
Proof. induction n as [|n IH]; cbn; auto. lia. Qed.

Lemma sumf_split m n f : sumf (m + n) f = sumf m f + sumf n (fun i => f (m + i)).
Proof. induction n as [|n IH]; cbn; [now rewrite !Nat.add_0_r|]. rewrite Nat.add_succ_r. cbn. lia. Qed.

Lemma sumf_0 n : sumf n (fun _ => 0) = 0.
Proof. induction n as [|n IH]; cbn; lia. Qed.

Lemma sumf_swap n m f : sumf n (fun i => sumf m (fun j => f i j)) = sumf m (fun j => sumf n (fun i => f i j)).
Proof. induction n as [|n IH]; cbn; [now rewrite sumf_0|]. now rewrite IH, <- sumf_add. Qed.

Lemma sumf_blocks m n f : sumf (m * n) f = sumf m (fun j => sumf n (fun i => f (j * n + i))).
Proof. induction m as [|m IH]; cbn; auto. rewrite Nat.add_comm, sumf_split, IH. reflexivity. Qed.

Lemma sumf_mono n f : forall i j, i <= j <= n -> sumf i f <= sumf j f.
Proof. intros i j H. replace j with (i + (j - i)) by lia. rewrite sumf_split. lia. Qed.

Section Flex.
Variables (garbage : option nat) (nEn nSp bSize : nat) (spTypes : list N) (spSizes : list nat) (chars : list N).
Hypothesis HT : nSp <= length spTypes.
Hypothesis HS : nSp <= length spSizes.
Hypothesis HC : nEn <= length chars.

Let hs (st en : nat) : bool := has (nth en chars 0%N) (nth st spTypes 0%N).
Let sz (k : nat) : nat := if k <? nEn then bSize else if hs (k / nEn - 1) (k mod nEn) then nth (k / nEn - 1) spSizes 0 else 0.
Let P (k : nat) : option nat := if (k <? nEn) || hs (k / nEn - 1) (k mod nEn) then Some (sumf k sz) else None.

Lemma flexSize_ok : flexSize nEn nSp bSize spTypes spSizes chars = Ok (sumf ((nSp + 1) * nEn) sz).
Proof.
  set (f := fun en => bSize + sumf nSp (fun st => if hs st en then nth st spSizes 0 else 0)).
  assert (E : flexSize nEn nSp bSize spTypes spSizes chars = Ok (sumf nEn f)).
  { unfold flexSize. eassert (X : _). 1: apply (for_ok (fun n m => m = sumf n f) 0 nEn
      (fun en mem => for_ 0 nSp (fun st mem => c <- rd chars en ;; t <- rd spTypes st ;; if has c t then s <- rd spSizes st ;; Ok (mem + s) else Ok mem) (mem + bSize)) 0); [lia|reflexivity|].
    2: { destruct X as (s & -> & ->). reflexivity. }
    intros en mem Hen ->.
    edestruct (for_ok (fun n m => m = sumf en f + bSize + sumf n (fun st => if hs st en then nth st spSizes 0 else 0)) 0 nSp
      (fun st mem => c <- rd chars en ;; t <- rd spTypes st ;; if has c t then s <- rd spSizes st ;; Ok (mem + s) else Ok mem) (sumf en f + bSize)) as (s & E & HI); [lia|cbn; lia| |].
    - intros st m Hst ->. rewrite (rd_ok chars en 0%N), (rd_ok spTypes st 0%N) by lia. cbn [bind]. fold (hs st en). cbn [sumf]. destruct (hs st en).
      + rewrite (rd_ok spSizes st 0) by lia. cbn [bind]. eexists. split; [reflexivity|]. lia.
      + eexists. split; [reflexivity|]. lia.
    - rewrite E. eexists. split; [reflexivity|]. rewrite HI. cbn [sumf]. unfold f. lia. }
  rewrite E. f_equal. unfold f. rewrite sumf_add, sumf_swap.
  replace ((nSp + 1) * nEn) with (nEn + nSp * nEn) by lia. rewrite sumf_split, sumf_blocks. f_equal.
  - apply sumf_ext. intros i Hi. unfold sz. replace (i <? nEn) with true by lia. reflexivity.
  - apply sumf_ext. intros j Hj. apply sumf_ext. intros i Hi. unfold sz.
    replace (nEn + (j * nEn + i) <? nEn) with false by lia.
    replace (nEn + (j * nEn + i)) with (i + (j + 1) * nEn) by lia. rewrite Nat.div_add, Nat.mod_add by lia.
    rewrite Nat.div_small, Nat.mod_small by lia. replace (0 + (j + 1) - 1) with j by lia. reflexivity.
Qed.

Lemma flex_ok : exists ptrs, flex garbage nEn nSp bSize spTypes spSizes chars = Ok (sumf ((nSp + 1) * nEn) sz, ptrs) /\
  length ptrs = (nSp + 1) * nEn + 1 /\ (forall k, k < (nSp + 1) * nEn -> nth_error ptrs k = Some (P k)) /\
  nth_error ptrs ((nSp + 1) * nEn) = Some (Some (sumf ((nSp + 1) * nEn) sz)).
Proof.
  unfold flex. rewrite flexSize_ok. cbn [bind]. set (L := (nSp + 1) * nEn).
  set (I := fun (k : nat) (s : nat * list (option nat)) => fst s = sumf k sz /\ length (snd s) = L + 1 /\ forall j, j < k -> nth_error (snd s) j = Some (P j)).
  edestruct (for_ok I 0 nEn (fun en '(raw, ptrs) => ptrs <- wr ptrs en (Some raw) ;; Ok (raw + bSize, ptrs)) (0, repeat garbage (L + 1))) as (s & E & HI); [lia| | |].
  - repeat split; [cbn; now rewrite repeat_length|intros; lia].
  - intros en (raw & ptrs) Hen (I1 & I2 & I3). cbn [fst snd] in *. rewrite wr_ok by (unfold L in *; nia). cbn [bind]. eexists. split; [reflexivity|].
    repeat split; cbn [fst snd sumf].
    + rewrite I1. unfold sz at 3. replace (en <? nEn) with true by lia. reflexivity.
    + now rewrite length_upd.
    + intros j Hj. destruct (Nat.eq_dec j en) as [->|N].
      * rewrite nth_error_upd_eq by (unfold L in *; nia). f_equal. unfold P. replace (en <? nEn) with true by lia. cbn [orb]. now rewrite I1.
      * rewrite nth_error_upd_ne by lia. apply I3. lia.
  - rewrite E. destruct s as (raw & ptrs). cbn [bind].
    edestruct (for_ok (fun st s => I ((st + 1) * nEn) s) 0 nSp (fun st '(raw, ptrs) => for_ 0 nEn (fun en '(raw, ptrs) =>
       c <- rd chars en ;; t <- rd spTypes st ;;
       if has c t then ptrs <- wr ptrs (nEn * (st + 1) + en) (Some raw) ;; s <- rd spSizes st ;; Ok (raw + s, ptrs)
       else ptrs <- wr ptrs (nEn * (st + 1) + en) None ;; Ok (raw, ptrs)) (raw, ptrs)) (raw, ptrs)) as (s2 & E2 & HI2); [lia|cbn [Nat.add Nat.mul]; rewrite Nat.add_0_r; exact HI| |].
    + intros st (raw1 & ptrs1) Hst HI1.
      edestruct (for_ok (fun en s => I ((st + 1) * nEn + en) s) 0 nEn (fun en '(raw, ptrs) =>
         c <- rd chars en ;; t <- rd spTypes st ;;
         if has c t then ptrs <- wr ptrs (nEn * (st + 1) + en) (Some raw) ;; s <- rd spSizes st ;; Ok (raw + s, ptrs)
         else ptrs <- wr ptrs (nEn * (st + 1) + en) None ;; Ok (raw, ptrs)) (raw1, ptrs1)) as (s3 & E3 & HI3); [lia|rewrite Nat.add_0_r; exact HI1| |].
      * intros en (raw3 & ptrs3) Hen (I1 & I2 & I3). cbn [fst snd] in *. cbv zeta.
        rewrite (rd_ok chars en 0%N), (rd_ok spTypes st 0%N) by lia. cbn [bind]. fold (hs st en).
        set (k := (st + 1) * nEn + en) in *. replace (nEn * (st + 1) + en) with k by (unfold k; lia).
        assert (KL : k < L) by (unfold k, L; nia).
        assert (KD : k / nEn = st + 1 /\ k mod nEn = en).
        { unfold k. rewrite Nat.add_comm, Nat.div_add, Nat.mod_add, Nat.div_small, Nat.mod_small by lia. lia. }
        destruct KD as (KD & KM). assert (KN : k <? nEn = false) by (unfold k; nia).
        replace ((st + 1) * nEn + S en) with (S k) by (unfold k; lia).
        assert (ZK : sz k = if hs st en then nth st spSizes 0 else 0).
        { unfold sz. rewrite KN, KD, KM. replace (st + 1 - 1) with st by lia. reflexivity. }
        assert (PK : P k = if hs st en then Some (sumf k sz) else None).
        { unfold P. rewrite KN, KD, KM. replace (st + 1 - 1) with st by lia. reflexivity. }
        destruct (hs st en).
        -- rewrite wr_ok by lia. cbn [bind]. rewrite (rd_ok spSizes st 0) by lia. cbn [bind]. eexists. split; [reflexivity|]. repeat split; cbn [fst snd sumf].
           ++ now rewrite I1, ZK.
           ++ now rewrite length_upd.
           ++ intros j Hj. destruct (Nat.eq_dec j k) as [->|N]; [rewrite nth_error_upd_eq, PK, I1 by lia; reflexivity|]. rewrite nth_error_upd_ne by lia. apply I3. lia.
        -- rewrite wr_ok by lia. cbn [bind]. eexists. split; [reflexivity|]. repeat split; cbn [fst snd sumf].
           ++ now rewrite I1, ZK, Nat.add_0_r.
           ++ now rewrite length_upd.
           ++ intros j Hj. destruct (Nat.eq_dec j k) as [->|N]; [rewrite nth_error_upd_eq, PK by lia; reflexivity|]. rewrite nth_error_upd_ne by lia. apply I3. lia.
      * rewrite E3. eexists. split; [reflexivity|]. replace ((S st + 1) * nEn) with ((st + 1) * nEn + nEn) by lia. exact HI3.
    + rewrite E2. destruct s2 as (raw2 & ptrs2). cbn [bind]. destruct HI2 as (I1 & I2 & I3). cbn [fst snd] in *. fold L in I1, I3.
      rewrite wr_ok by lia. cbn [bind]. eexists. split; [reflexivity|]. split; [now rewrite length_upd|]. split.
      * intros k Hk. rewrite nth_error_upd_ne by lia. apply I3. lia.
      * rewrite nth_error_upd_eq by lia. now rewrite I1.
Qed.
End Flex.

Lemma has_carries chars t en : en < length chars -> has (nth en chars 0%N) t = true <-> carries chars t en.
Proof.
  intros H. rewrite <- sp_carries. unfold sp. now rewrite (nth_error_nth' chars 0%N H).
Qed.

(** flex: an entity has a pointer to its base data, and one for a sparse type exactly if it carries the type (null otherwise).
    The chunks lie inside of the allocated memory and are pairwise disjoint; the last entry is the end of the memory. *)
Theorem C22_flex garbage nEn nSp bSize spTypes spSizes chars :
  length spTypes = nSp -> length spSizes = nSp -> length chars = nEn ->
  exists mem ptrs, flex garbage nEn nSp bSize spTypes spSizes chars = Ok (mem, ptrs) /\
    let size := chunkSize nEn bSize spSizes in
    let last := (nSp + 1) * nEn in
    length ptrs = last + 1 /\
    (forall k, k < last -> (hasChunk nEn spTypes chars k <-> exists b, nth_error ptrs k = Some (Some b)) /\
                           (~ hasChunk nEn spTypes chars k <-> nth_error ptrs k = Some None)) /\
    (forall k b, k < last -> nth_error ptrs k = Some (Some b) -> b + size k <= mem) /\
    (forall k b k' b', k < k' < last -> nth_error ptrs k = Some (Some b) -> nth_error ptrs k' = Some (Some b') -> b + size k <= b') /\
    nth_error ptrs last = Some (Some mem).
Proof.
  intros HT HS HC. destruct (flex_ok garbage nEn nSp bSize spTypes spSizes chars) as (ptrs & E & L & K & G); try lia.
  eexists _, ptrs. split; [exact E|]. cbv zeta.
  set (sz := fun k => if k <? nEn then bSize else if has (nth (k mod nEn) chars 0%N) (nth (k / nEn - 1) spTypes 0%N) then nth (k / nEn - 1) spSizes 0 else 0) in *.
  set (last := (nSp + 1) * nEn) in *.
  assert (HCH : forall k, k < last -> hasChunk nEn spTypes chars k <-> (k <? nEn) || has (nth (k mod nEn) chars 0%N) (nth (k / nEn - 1) spTypes 0%N) = true).
  { intros k Hk. assert (DM : k / nEn - 1 < nSp /\ k mod nEn < nEn \/ k < nEn).
    { destruct (lt_dec k nEn); [auto|]. left. assert (0 < nEn) by (unfold last in Hk; nia). split; [|apply Nat.mod_upper_bound; lia].
      assert (k / nEn < nSp + 1) by (apply Nat.div_lt_upper_bound; unfold last in Hk; lia). assert (1 <= k / nEn) by (apply Nat.div_le_lower_bound; lia). lia. }
    rewrite orb_true_iff, Nat.ltb_lt. unfold hasChunk. split.
    - intros [H|(H & t & Et & Hc)]; [auto|right]. rewrite (nth_error_nth _ _ _ Et). apply has_carries; auto. lia.
    - intros [H|H]; [auto|]. destruct (lt_dec k nEn) as [|H']; [auto|]. right. split; [lia|]. exists (nth (k / nEn - 1) spTypes 0%N). split; [apply nth_error_nth'; lia|]. apply has_carries; auto. lia. }
  assert (KS : forall k b, k < last -> nth_error ptrs k = Some (Some b) -> b = sumf k sz /\ chunkSize nEn bSize spSizes k = sz k).
  { intros k b Hk Hb. rewrite K in Hb by auto. unfold chunkSize, sz.
    destruct ((k <? nEn) || has (nth (k mod nEn) chars 0%N) (nth (k / nEn - 1) spTypes 0%N)) eqn:B; [|discriminate]. injection Hb as <-. split; auto.
    destruct (k <? nEn); auto. cbn [orb] in B. now rewrite B. }
  split; auto. split; [|split; [|split]].
  - intros k Hk. rewrite K, HCH by auto. destruct ((k <? nEn) || has (nth (k mod nEn) chars 0%N) (nth (k / nEn - 1) spTypes 0%N)); split; split; intros H; try discriminate; auto.
    + eexists. reflexivity.
    + congruence.
    + destruct H as (b & H). discriminate.
  - intros k b Hk Hb. destruct (KS k b Hk Hb) as (-> & ->). change (sumf k sz + sz k) with (sumf (S k) sz). apply (sumf_mono last). lia.
  - intros k b k' b' Hk Hb Hb'. destruct (KS k b ltac:(lia) Hb) as (-> & ->). destruct (KS k' b' ltac:(lia) Hb') as (-> & _).
    change (sumf k sz + sz k) with (sumf (S k) sz). apply (sumf_mono last). lia.
  - exact G.
Qed.
Print Assumptions C22_flex.

(** the example in the documentation, src/data/Dynamic.h:75-91 *)
Example C22_ex : flex (Some 123) 5 3 2 [2; 6; 1]%N [5; 3; 8] [1; 2; 6; 4; 7]%N =
  Ok (47, [Some 0; Some 2; Some 4; Some 6; Some 8; None; Some 10; Some 15; None; Some 20; None; None; Some 25; None; Some 28;
           Some 31; None; None; None; Some 39; Some 47]).
Proof. reflexivity. Qed.

(** * C44: Dynamic memory *)

Lemma lib_eqb_eq a b : lib_eqb a b = true <-> a = b.
Proof. destruct a, b; cbn; split; congruence. Qed.

(** answers of the system are addresses of memory which is not in use *)
Fixpoint fresh (c : cfg) (rs : list req) (h : heap) : Prop :=
  match rs with
  | [] => True
  | r :: rs => match allocLib c (rqSize r) (rHbw r) (rHuge r) with
               | None => fresh c rs h
               | Some k => exists a, rAns r = Some a /\ ~ In a (map fst h) /\ fresh c rs ((a, k) :: h)
               end
  end.

Lemma heapFree_head h1 a k h2 : ~ In a (map fst h1) -> heapFree (h1 ++ (a, k) :: h2) a k = Ok (h1 ++ h2).
Proof.
  induction h1 as [|(a', k') h1 IH]; cbn [app heapFree map fst]; intros H.
  - rewrite Nat.eqb_refl, (proj2 (lib_eqb_eq k k) eq_refl). reflexivity.
  - destruct (Nat.eqb_spec a a') as [->|N]; [exfalso; apply H; now left|]. cbn [andb]. rewrite IH by (intros X; apply H; now right). reflexivity.
Qed.

Definition blocks (c : cfg) (d : dyn) : heap :=
  flat_map (fun '(p, (b, u)) => match p with Some a => [(a, releaseLib c b u)] | None => [] end) (combine (dMem d) (combine (dHbw d) (dHuge d))).

Lemma dynAllocs_ok c rs : forall d h0, fresh c rs (rev (blocks c d) ++ h0) -> length (dHbw d) = length (dMem d) -> length (dHuge d) = length (dMem d) ->
  NoDup (map fst (rev (blocks c d) ++ h0)) ->
  exists d', dynAllocs c rs (d, rev (blocks c d) ++ h0) = Ok (d', rev (blocks c d') ++ h0) /\
    length (dMem d') = length (dMem d) + length rs /\ length (dHbw d') = length (dMem d') /\ length (dHuge d') = length (dMem d') /\
    NoDup (map fst (rev (blocks c d') ++ h0)) /\
    (forall i r, nth_error rs i = Some r -> exists p, nth_error (dMem d') (length (dMem d) + i) = Some p /\ (p = None <-> rqSize r = 0)) /\
    (forall i p, nth_error (dMem d) i = Some p -> nth_error (dMem d') i = Some p).
Proof.
  induction rs as [|r rs IH]; intros d h0 HF L1 L2 ND; cbn [dynAllocs].
  - exists d. repeat split; auto. all: intros [|?] ?; discriminate.
  - cbn [fresh] in HF. unfold dynAlloc.
    set (mkd := fun p => mkDyn (dMem d ++ [p]) (dHbw d ++ [rHbw r]) (dHuge d ++ [rHuge r])).
    assert (BL : forall p, blocks c (mkd p) = blocks c d ++ match p with Some a => [(a, releaseLib c (rHbw r) (rHuge r))] | None => [] end).
    { intros p. unfold blocks, mkd. cbn [dMem dHbw dHuge].
      assert (CA : forall A B (l : list A) (m : list B) x y, length l = length m -> combine (l ++ [x]) (m ++ [y]) = combine l m ++ [(x, y)]).
      { induction l; intros [|? ?] x y X; try discriminate; cbn; auto. f_equal. apply IHl. cbn in X. lia. }
      rewrite !CA; try congruence; [|rewrite combine_length; lia]. rewrite flat_map_app. cbn. destruct p; auto. }
    assert (STEP : forall p h, h = rev (blocks c (mkd p)) ++ h0 -> fresh c rs h -> NoDup (map fst h) -> (p = None <-> rqSize r = 0) ->
       exists d', dynAllocs c rs (mkd p, h) = Ok (d', rev (blocks c d') ++ h0) /\
       length (dMem d') = length (dMem d) + length (r :: rs) /\ length (dHbw d') = length (dMem d') /\ length (dHuge d') = length (dMem d') /\
       NoDup (map fst (rev (blocks c d') ++ h0)) /\
       (forall i r', nth_error (r :: rs) i = Some r' -> exists p, nth_error (dMem d') (length (dMem d) + i) = Some p /\ (p = None <-> rqSize r' = 0)) /\
       (forall i p, nth_error (dMem d) i = Some p -> nth_error (dMem d') i = Some p)).
    { intros p h -> Hf Hn Hp. destruct (IH (mkd p) h0 Hf) as (d' & E & A1 & A2 & A3 & A4 & A5 & A6); auto; try (cbn; rewrite !app_length; cbn; lia).
      exists d'. unfold mkd in A1, A5. cbn [dMem] in A1, A5. rewrite app_length in A1, A5. cbn [length] in *. repeat split; auto; try lia.
      - intros [|i] r' Hr; cbn [nth_error] in Hr.
        + injection Hr as <-. exists p. split; auto. apply A6. cbn [mkd dMem]. rewrite nth_error_app2 by lia. replace (length (dMem d) + 0 - length (dMem d)) with 0 by lia. reflexivity.
        + destruct (A5 i r' Hr) as (q & Q1 & Q2). exists q. split; auto. rewrite <- Q1. f_equal. lia.
      - intros i q Hq. apply A6. cbn [mkd dMem]. rewrite nth_error_app1; auto. apply nth_error_Some. congruence. }
    unfold allocLib in *. destruct (Nat.ltb_spec 0 (rqSize r)) as [Lz|Lz].
    + destruct HF as (a & Ea & Na & HF). rewrite Ea. cbn [bind].
      apply (STEP (Some a)).
      * rewrite BL, rev_app_distr. cbn [rev app]. reflexivity.
      * exact HF.
      * cbn [map fst]. constructor; auto.
      * split; [discriminate|lia].
    + cbn [bind]. apply (STEP None); auto.
      * rewrite BL, app_nil_r. reflexivity.
      * split; auto. lia.
Qed.

Lemma dynDestroy_ok c h0 : forall mem hbw huge i (d : dyn),
  length hbw = length mem -> length huge = length mem ->
  skipn i (dMem d) = mem -> skipn i (dHbw d) = hbw -> skipn i (dHuge d) = huge ->
  let bl := flat_map (fun '(p, (b, u)) => match p with Some a => [(a, releaseLib c b u)] | None => [] end) (combine mem (combine hbw huge)) in
  NoDup (map fst (rev bl ++ h0)) ->
  for_n (length mem) i (fun me h => p <- rd (dMem d) me ;; hbw <- rd (dHbw d) me ;; huge <- rd (dHuge d) me ;;
    match p with None => Ok h | Some a => heapFree h a (releaseLib c hbw huge) end) (rev bl ++ h0) = Ok h0.
Proof.
  induction mem as [|p mem IH]; intros hbw huge i d L1 L2 S1 S2 S3 bl ND; destruct hbw as [|b hbw]; try discriminate; destruct huge as [|u huge]; try discriminate.
  - reflexivity.
  - cbn [for_n length].
    assert (RD : forall A (l : list A) x l', skipn i l = x :: l' -> rd l i = Ok x /\ skipn (S i) l = l').
    { intros A l x l' E. assert (N : nth_error l i = Some x) by (rewrite <- (Nat.add_0_r i), <- nth_error_skipn', E; reflexivity).
      split; [now apply rd_some|]. destruct (skipn_cons i l) as (y & _ & Y); [apply nth_error_Some; congruence|]. rewrite Y, Nat.add_1_r in E. congruence. }
    destruct (RD _ _ _ _ S1) as (R1 & T1). destruct (RD _ _ _ _ S2) as (R2 & T2). destruct (RD _ _ _ _ S3) as (R3 & T3).
    rewrite R1, R2, R3. cbn [bind]. unfold bl in *. cbn [combine flat_map] in *. rewrite rev_app_distr in *.
    set (bl' := flat_map _ (combine mem (combine hbw huge))) in *.
    destruct p as [a|]; cbn [rev app] in *.
    + rewrite <- app_assoc. cbn [app]. rewrite <- app_assoc in ND. cbn [app] in ND. rewrite map_app in ND. cbn [map fst] in ND.
      rewrite heapFree_head.
      * cbn [bind]. apply IH; auto. cbv zeta. rewrite map_app. now apply NoDup_remove_1 in ND.
      * intros X. apply NoDup_remove_2 in ND. apply ND. apply in_or_app. now left.
    + cbn [bind]. rewrite app_nil_r in *. apply IH; auto.
Qed.

(** For every build configuration and every sequence of requests which the system answers with unused memory: the calls
    succeed, null is returned exactly for size 0, the blocks are distinct, and the destructor frees every block exactly once
    and through the library which provided it, leaving everything else alone. *)
Theorem C44_dynamic_released c rs h0 : NoDup (map fst h0) -> fresh c rs h0 ->
  exists d h, dynAllocs c rs (mkDyn [] [] [], h0) = Ok (d, h) /\ NoDup (map fst h) /\
    (forall i r, nth_error rs i = Some r -> exists p, nth_error (dMem d) i = Some p /\ (p = None <-> rqSize r = 0)) /\
    dynDestroy c d h = Ok h0.
Proof.
  intros ND HF. destruct (dynAllocs_ok c rs (mkDyn [] [] []) h0) as (d & E & A1 & A2 & A3 & A4 & A5 & _); auto.
  exists d, (rev (blocks c d) ++ h0). repeat split; auto.
  unfold dynDestroy, for_. rewrite Nat.sub_0_r. apply dynDestroy_ok; auto.
Qed.
Print Assumptions C44_dynamic_released.

(** A failing allocation stops the program. *)
Remark C44_failure c r d h : 0 < rqSize r -> rAns r = None -> dynAlloc c r (d, h) = Er Echeck.
Proof. intros H E. unfold dynAlloc, allocLib. apply Nat.ltb_lt in H. rewrite H, E. reflexivity. Qed.

Example C44_ex : let c := mkCfg true true in
  let rs := [mkReq 10 true true (Some 100); mkReq 0 true false None; mkReq 5 false true (Some 64); mkReq 6 false false (Some 128)] in
  fresh c rs [(7, LPosix)] /\
  dynAllocs c rs (mkDyn [] [] [], [(7, LPosix)]) =
    Ok (mkDyn [Some 100; None; Some 64; Some 128] [true; true; false; false] [true; false; true; false], [(128, LPosix); (64, LHuge); (100, LHbw); (7, LPosix)]).
Proof.
  cbv zeta. split; [|reflexivity]. cbn. exists 100. split; auto. split; [lia|]. exists 64. split; auto. split; [lia|]. exists 128. repeat split; auto. lia.
Qed.

(** * C22: adjacency-based data *)

(** pointer of entity [en] for its adjacent entity [ad] *)
Definition ptrAt (s : ast) (en ad : nat) : option (option nat) :=
  match nth_error (aPtrs s) en with Some row => nth_error row ad | None => None end.

(** Adjacency [ad] of entity [en] is defined and goes to [a]; one of the two is sparse if a sparse type is given. *)
Definition adjacent (nAd : nat) (enAd : list (option nat)) (sp : option (list (option nat))) (en ad a : nat) : Prop :=
  ad < nAd /\ nth_error enAd (en * nAd + ad) = Some (Some a) /\
  match sp with None => True | Some l => exists x y, nth_error l en = Some x /\ (x = None -> nth_error l a = Some y /\ y <> None) end.

Definition AInv (s : ast) : Prop :=
  (forall e a r, ptrAt s e a = Some (Some r) -> r < aRaw s) /\
  (forall e a e' a' r, ptrAt s e a = Some (Some r) -> ptrAt s e' a' = Some (Some r) -> e = e' /\ a = a') /\
  (forall r, r < aRaw s -> exists e a, ptrAt s e a = Some (Some r)).

(** from [s] to [s'] exactly the pointers in [P] were set *)
Definition seg (P : nat -> nat -> Prop) (s s' : ast) : Prop :=
  aSend s' = aSend s /\ aRecv s' = aRecv s /\ aRaw s <= aRaw s' /\ (AInv s -> AInv s') /\
  (forall e a, P e a -> ptrAt s e a = Some None /\ exists r, aRaw s <= r < aRaw s' /\ ptrAt s' e a = Some (Some r)) /\
  (forall e a, ptrAt s' e a = ptrAt s e a \/ P e a).

Lemma seg_ext P Q s s' : (forall e a, P e a <-> Q e a) -> seg P s s' -> seg Q s s'.
Proof.
  intros H (A1 & A2 & A3 & A4 & A5 & A6). split; auto. split; auto. split; auto. split; auto. split.
  - intros e a X. apply H in X. now apply A5.
  - intros e a. destruct (A6 e a); auto. right. now apply H.
Qed.

Lemma seg_refl (P : nat -> nat -> Prop) s : (forall e a, ~ P e a) -> seg P s s.
Proof.
  intros H. split; auto. split; auto. split; auto. split; auto. split; auto. intros e a X. exfalso. eapply H; eauto.
Qed.

Lemma seg_keep P s s' e a r : seg P s s' -> ptrAt s e a = Some (Some r) -> ptrAt s' e a = Some (Some r).
Proof.
  intros (_ & _ & _ & _ & A5 & A6) H. destruct (A6 e a) as [E|E]; [congruence|]. apply A5 in E as (E & _). congruence.
Qed.

Lemma seg_trans P Q s s1 s2 : seg P s s1 -> seg Q s1 s2 -> seg (fun e a => P e a \/ Q e a) s s2.
Proof.
  intros H1 H2. pose proof H1 as (A1 & A2 & A3 & A4 & A5 & A6). pose proof H2 as (B1 & B2 & B3 & B4 & B5 & B6).
  split; [congruence|]. split; [congruence|]. split; [lia|]. split; [auto|]. split.
  - intros e a [H|H].
    + destruct (A5 e a H) as (X & r & R & Y). split; auto. exists r. split; [lia|]. now apply (seg_keep _ _ _ _ _ _ H2).
    + destruct (B5 e a H) as (X & r & R & Y). split; [|exists r; split; [lia|auto]].
      destruct (A6 e a) as [E|E]; [congruence|]. apply A5 in E as (_ & r' & _ & E). congruence.
  - intros e a. destruct (A6 e a), (B6 e a); auto. left. congruence.
Qed.

(** what a segment means in any later state *)
Lemma seg_range P Q s s1 s2 : AInv s -> seg P s s1 -> seg Q s1 s2 ->
  forall e a r, ptrAt s2 e a = Some (Some r) -> (aRaw s <= r < aRaw s1 <-> P e a).
Proof.
  intros I H1 H2 e a r E. pose proof H1 as (A1 & A2 & A3 & A4 & A5 & A6). pose proof H2 as (B1 & B2 & B3 & B4 & B5 & B6). split.
  - intros R. destruct (B6 e a) as [X|X]; [|apply B5 in X as (_ & r' & R' & X); assert (r' = r) by congruence; lia].
    destruct (A6 e a) as [Y|Y]; auto. destruct I as (I & _). rewrite E in X. rewrite <- X in Y. symmetry in Y. apply I in Y. lia.
  - intros H. destruct (A5 e a H) as (_ & r' & R & Y). apply (seg_keep _ _ _ _ _ _ H2) in Y. assert (r' = r) by congruence. lia.
Qed.

Lemma adjAssign_seg en ad s s' : adjAssign en ad s = Ok s' -> seg (fun e a => e = en /\ a = ad) s s'.
Proof.
  unfold adjAssign. intros E. apply bind_ok in E as (row & E1 & E). apply bind_ok in E as (p & E2 & E). apply bind_ok in E as (u & E3 & E).
  apply bind_ok in E as (row' & E4 & E). apply bind_ok in E as (ptrs & E5 & E). injection E as <-.
  apply rd_inv in E1, E2. apply wr_inv in E4 as (L4 & ->). apply wr_inv in E5 as (L5 & ->).
  assert (p = None) as -> by (destruct p; [discriminate|auto]).
  assert (AT : forall e a, ptrAt (mkAst (S (aRaw s)) (upd (aPtrs s) en (upd row ad (Some (aRaw s)))) (aSend s) (aRecv s)) e a =
     if (e =? en) && (a =? ad) then Some (Some (aRaw s)) else ptrAt s e a).
  { intros e a. unfold ptrAt. cbn [aPtrs]. destruct (Nat.eqb_spec e en) as [->|N].
    - rewrite nth_error_upd_eq by auto. rewrite E1. cbn [andb]. destruct (Nat.eqb_spec a ad) as [->|N']; [now apply nth_error_upd_eq|]. now apply nth_error_upd_ne; auto.
    - rewrite nth_error_upd_ne by auto. reflexivity. }
  assert (NL : ptrAt s en ad = Some None) by (unfold ptrAt; now rewrite E1).
  split; [reflexivity|]. split; [reflexivity|]. split; [cbn; lia|]. split; [|split].
  - intros (I1 & I2 & I3). split; [|split].
    + intros e a r. rewrite AT. cbn [aRaw]. destruct (_ && _); intros H; [injection H as <-; lia|]. apply I1 in H. lia.
    + intros e a e' a' r. rewrite !AT.
      destruct (Nat.eqb_spec e en), (Nat.eqb_spec a ad), (Nat.eqb_spec e' en), (Nat.eqb_spec a' ad); cbn [andb]; intros X Y; subst; auto; try (now apply (I2 _ _ _ _ _ X Y)).
      all: try (injection X as <-; apply I1 in Y; lia). all: try (injection Y as <-; apply I1 in X; lia).
    + intros r Hr. cbn [aRaw] in Hr. destruct (Nat.eq_dec r (aRaw s)) as [->|N].
      * exists en, ad. rewrite AT, !Nat.eqb_refl. reflexivity.
      * destruct (I3 r ltac:(lia)) as (e & a & X). exists e, a. rewrite AT. destruct (Nat.eqb_spec e en), (Nat.eqb_spec a ad); cbn [andb]; subst; auto. congruence.
  - intros e a (-> & ->). split; auto. exists (aRaw s). split; [cbn; lia|]. now rewrite AT, !Nat.eqb_refl.
  - intros e a. rewrite AT. destruct (Nat.eqb_spec e en), (Nat.eqb_spec a ad); cbn [andb]; auto.
Qed.

(** entities of region [r], adjacencies which pass the test *)
Definition sel nAd enAd sp (r : rgn) (p : nat -> res bool) (e a : nat) : Prop :=
  inside r e /\ exists x, adjacent nAd enAd sp e a x /\ p x = Ok true.

Lemma adjSkip_ok sp en a b : adjSkip sp en a = Ok b ->
  (b = false <-> match sp with None => True | Some l => exists x y, nth_error l en = Some x /\ (x = None -> nth_error l a = Some y /\ y <> None) end).
Proof.
  unfold adjSkip. destruct sp as [l|]; [|intros H; injection H as <-; tauto].
  intros H. apply bind_ok in H as (x & E & H). apply rd_inv in E. destruct x as [x|].
  - injection H as <-. split; auto. intros _. exists (Some x), None. split; auto. discriminate.
  - apply bind_ok in H as (y & E' & H). apply rd_inv in E'. injection H as <-. destruct y as [y|]; split; auto.
    + intros _. exists None, (Some y). repeat split; auto. discriminate.
    + discriminate.
    + intros (x & y & X & Y). assert (x = None) as -> by congruence. destruct (Y eq_refl) as (Y1 & Y2). congruence.
Qed.

Lemma adjRgn_seg nAd enAd sp r p s s' : adjRgn nAd enAd sp r p s = Ok s' -> seg (sel nAd enAd sp r p) s s'.
Proof.
  unfold adjRgn. intros E.
  assert (X : seg (fun e a => e < rFirst r + rSize r /\ sel nAd enAd sp r p e a) s s').
  2: { eapply seg_ext; [|exact X]. intros e a. unfold sel, inside. split; [tauto|]. intros H. split; [|auto]. lia. }
  refine (for_inv (fun k s' => seg (fun e a => e < k /\ sel nAd enAd sp r p e a) s s') _ _ _ _ _ _ E _ _); [lia| |].
  - apply seg_refl. intros e a (L & (L' & _)). unfold inside in L'. lia.
  - clear E. intros en s1 s2 Hen HI E.
    assert (Y : seg (fun e a => e = en /\ a < nAd /\ sel nAd enAd sp r p e a) s1 s2).
    2: { eapply seg_ext; [|exact (seg_trans _ _ _ _ _ HI Y)]. intros e a. cbv beta. unfold sel. split.
         - intros [(L & H)|(-> & L & H)]; split; auto; lia.
         - intros (L & H). destruct (Nat.eq_dec e en) as [->|N]; [right|left; split; auto; lia]. split; auto. split; auto. destruct H as (_ & x & (L' & _) & _). auto. }
    refine (for_inv (fun k s2 => seg (fun e a => e = en /\ a < k /\ sel nAd enAd sp r p e a) s1 s2) _ _ _ _ _ _ E _ _); [lia| |].
    + apply seg_refl. intros e a (_ & L & _). lia.
    + clear E. intros ad s3 s4 Had HI3 E.
      assert (STEP : forall b : bool, (b = true -> sel nAd enAd sp r p en ad) -> (b = false -> ~ sel nAd enAd sp r p en ad) ->
         (if b then adjAssign en ad s3 else Ok s3) = Ok s4 -> seg (fun e a => e = en /\ a < S ad /\ sel nAd enAd sp r p e a) s1 s4).
      { intros [|] H1 H2 H3.
        - eapply seg_ext; [|exact (seg_trans _ _ _ _ _ HI3 (adjAssign_seg _ _ _ _ H3))]. intros e a. cbv beta. split.
          + intros [(-> & L & H)|(-> & ->)]; (split; [auto|split; [lia|auto]]).
          + intros (-> & L & H). destruct (Nat.eq_dec a ad) as [->|N]; [auto|left]. split; [auto|split; [lia|auto]].
        - injection H3 as <-. eapply seg_ext; [|exact HI3]. intros e a. cbv beta. split.
          + intros (-> & L & H). split; [auto|split; [lia|auto]].
          + intros (-> & L & H). destruct (Nat.eq_dec a ad) as [->|N]; [exfalso; now apply H2|]. split; [auto|split; [lia|auto]]. }
      apply bind_ok in E as (x & Ex & E). apply rd_inv in Ex. destruct x as [x|].
      * apply bind_ok in E as (sk & Es & E). pose proof (adjSkip_ok _ _ _ _ Es) as SK. destruct sk.
        -- apply (STEP false); auto; [discriminate|]. intros _ (_ & x' & (_ & A & B) & _). assert (x' = x) as -> by congruence. apply SK in B. discriminate.
        -- apply bind_ok in E as (b & Eb & E). apply (STEP b); auto.
           ++ intros ->. split; [unfold inside; lia|]. exists x. split; auto. split; [lia|]. split; auto. now apply SK.
           ++ intros -> (_ & x' & (_ & A & B) & C). assert (x' = x) as -> by congruence. congruence.
      * apply (STEP false); auto; [discriminate|]. intros _ (_ & x' & (_ & A & B) & _). congruence.
Qed.

(** union over regions *)
Definition selSend nAd enAd sp (f : rgn -> nat -> bool) (ses res_ : list rgn) (e a : nat) : Prop :=
  exists k se re, nth_error ses k = Some se /\ nth_error res_ k = Some re /\ sel nAd enAd sp se (fun x => Ok (f re x)) e a.

Lemma selSend_cons nAd enAd sp f se ses re res_ e a :
  selSend nAd enAd sp f (se :: ses) (re :: res_) e a <-> sel nAd enAd sp se (fun x => Ok (f re x)) e a \/ selSend nAd enAd sp f ses res_ e a.
Proof.
  split.
  - intros ([|k] & se' & re' & H1 & H2 & H3); cbn in H1, H2; [left; injection H1 as <-; injection H2 as <-; exact H3|right; exists k, se', re'; auto].
  - intros [H|(k & se' & re' & H)]; [exists 0, se, re; auto|exists (S k), se', re'; auto].
Qed.

Lemma adjSendOther_seg nAd enAd sp : forall ses res_ s s', adjSendOther nAd enAd sp ses res_ s = Ok s' ->
  seg (selSend nAd enAd sp (fun re x => negb (inRgn re x)) ses res_) s s'.
Proof.
  induction ses as [|se ses IH]; intros [|re res_] s s' E; cbn [adjSendOther] in E; try discriminate.
  - injection E as <-. apply seg_refl. intros e a ([|k] & se & re & H & _); discriminate.
  - injection E as <-. apply seg_refl. intros e a ([|k] & se & re' & H & _); discriminate.
  - apply bind_ok in E as (s1 & E1 & E2). eapply seg_ext; [|exact (seg_trans _ _ _ _ _ (adjRgn_seg _ _ _ _ _ _ _ E1) (IH _ _ _ E2))].
    intros e a. now rewrite selSend_cons.
Qed.

(** consecutive segments with the pointers at their beginnings *)
Inductive segs : list (nat -> nat -> Prop) -> ast -> ast -> list nat -> Prop :=
| segs_nil s : segs [] s s []
| segs_cons P Ps s s1 s2 bs : seg P s s1 -> segs Ps s1 s2 bs -> segs (P :: Ps) s s2 (aRaw s :: bs).

Lemma segs_seg Ps s s' bs : segs Ps s s' bs -> seg (fun e a => exists P, In P Ps /\ P e a) s s'.
Proof.
  induction 1 as [s|P Ps s s1 s2 bs H1 H2 IH].
  - apply seg_refl. intros e a (P & [] & _).
  - eapply seg_ext; [|exact (seg_trans _ _ _ _ _ H1 IH)]. intros e a. cbv beta. split.
    + intros [H|(Q & HQ & H)]; [exists P|exists Q]; split; auto; [now left|now right].
    + intros (Q & [->|HQ] & H); [auto|right; exists Q; auto].
Qed.

Lemma segs_range Ps s s' bs : segs Ps s s' bs -> AInv s -> length bs = length Ps /\
  forall k P, nth_error Ps k = Some P -> exists b e, nth_error (bs ++ [aRaw s']) k = Some b /\ nth_error (bs ++ [aRaw s']) (S k) = Some e /\
    forall Q s2, seg Q s' s2 -> forall en ad r, ptrAt s2 en ad = Some (Some r) -> (b <= r < e <-> P en ad).
Proof.
  induction 1 as [s|P Ps s s1 s2 bs H1 H2 IH]; intros I.
  - split; auto. intros [|k]; discriminate.
  - destruct IH as (L & IH); [now apply H1|]. split; [cbn; lia|]. intros [|k] R HR; cbn [nth_error app] in *.
    + injection HR as <-. exists (aRaw s), (aRaw s1). split; auto. split.
      * inversion H2; subst; reflexivity.
      * intros Q s3 H3 en ad r E. apply (seg_range _ _ _ _ _ I H1 (seg_trans _ _ _ _ _ (segs_seg _ _ _ _ H2) H3) en ad r E).
    + destruct (IH k R HR) as (b & e & B1 & B2 & B3). exists b, e. auto.
Qed.

Lemma adjSend_segs nAd enAd sp : forall ses res_ s s' bs, adjSend nAd enAd sp ses res_ s = Ok (s', bs) -> length ses = length res_ ->
  segs (map (fun '(se, re) => sel nAd enAd sp se (fun x => Ok (inRgn re x))) (combine ses res_)) s s' bs.
Proof.
  induction ses as [|se ses IH]; intros [|re res_] s s' bs E L; cbn [adjSend] in E; try discriminate.
  - injection E as <- <-. constructor.
  - apply bind_ok in E as (s1 & E1 & E). apply bind_ok in E as ((s2 & bs2) & E2 & E). injection E as <- <-.
    cbn [combine map]. econstructor; [exact (adjRgn_seg _ _ _ _ _ _ _ E1)|]. apply IH; auto.
Qed.

(** test of the receive loop *)
Definition recvTest (tg : nat) (inner : rgn) (nOwn : nat) (a : nat) : res bool :=
  _ <- check (rFirst inner + rSize inner <=? a) ;; _ <- check (tg =? 0) ;; Ok (a <? rFirst inner + nOwn).

Lemma adjRecv_segs nAd enAd sp tg inner nOwn : forall res_ s s' bs, adjRecv nAd enAd sp tg inner nOwn res_ s = Ok (s', bs) ->
  segs (map (fun re => sel nAd enAd sp re (recvTest tg inner nOwn)) res_) s s' bs.
Proof.
  induction res_ as [|re res_ IH]; intros s s' bs E; cbn [adjRecv] in E.
  - injection E as <- <-. constructor.
  - apply bind_ok in E as (s1 & E1 & E). apply bind_ok in E as ((s2 & bs2) & E2 & E). injection E as <- <-.
    cbn [map]. econstructor; [exact (adjRgn_seg _ _ _ _ _ _ _ E1)|]. apply IH; auto.
Qed.

(** later states: more pointers and more lists of communication pointers *)
Definition later (s s' : ast) : Prop :=
  (exists Q s1, seg Q s s1 /\ aRaw s1 = aRaw s' /\ aPtrs s1 = aPtrs s') /\ (exists l, aSend s' = aSend s ++ l) /\ (exists l, aRecv s' = aRecv s ++ l).

(** What is claimed for time group number [tg] with layout [g] in the final state [s]. *)
Definition tg_ok nAd enAd sp (s : ast) (tg : nat) (g : tgrp) : Prop :=
  (* adjacencies of all owned entities have data *)
  (forall r e a x, r = tInner g \/ In r (tSend g) -> inside r e -> adjacent nAd enAd sp e a x -> exists d, ptrAt s e a = Some (Some d)) /\
  (* the data between the send pointers is exactly that of the send region towards its receive region *)
  (exists bs, nth_error (aSend s) tg = Some bs /\ length bs = S (length (tSend g)) /\
    forall k se re, nth_error (tSend g) k = Some se -> nth_error (tRecv g) k = Some re ->
      exists b e, nth_error bs k = Some b /\ nth_error bs (S k) = Some e /\
      forall en ad r, ptrAt s en ad = Some (Some r) -> (b <= r < e <-> inside se en /\ exists x, adjacent nAd enAd sp en ad x /\ inside re x)) /\
  (* the data between the receive pointers is exactly that of the receive region towards owned entities *)
  (exists bs, nth_error (aRecv s) tg = Some bs /\ length bs = S (length (tRecv g)) /\
    forall k re, nth_error (tRecv g) k = Some re ->
      exists b e, nth_error bs k = Some b /\ nth_error bs (S k) = Some e /\
      forall en ad r, ptrAt s en ad = Some (Some r) ->
        (b <= r < e <-> inside re en /\ tg = 0 /\ exists x, adjacent nAd enAd sp en ad x /\ rFirst (tInner g) + rSize (tInner g) <= x < rFirst (tInner g) + tOwn g)).

Lemma ptrAt_ptrs s s' : aPtrs s = aPtrs s' -> forall e a, ptrAt s e a = ptrAt s' e a.
Proof. intros E e a. unfold ptrAt. now rewrite E. Qed.

Lemma AInv_ptrs s s' : aPtrs s = aPtrs s' -> aRaw s = aRaw s' -> AInv s -> AInv s'.
Proof.
  intros E R (I1 & I2 & I3). pose proof (ptrAt_ptrs _ _ E) as P. split; [|split].
  - intros e a r. rewrite <- P, <- R. apply I1.
  - intros e a e' a' r. rewrite <- !P. apply I2.
  - intros r. rewrite <- R. intros H. destruct (I3 r H) as (e & a & X). exists e, a. now rewrite <- P.
Qed.

Lemma seg_ptrs P s s1 s2 : aPtrs s1 = aPtrs s2 -> aRaw s1 = aRaw s2 -> aSend s2 = aSend s -> aRecv s2 = aRecv s -> seg P s s1 -> seg P s s2.
Proof.
  intros E R S1 S2 (A1 & A2 & A3 & A4 & A5 & A6). pose proof (ptrAt_ptrs _ _ E) as PA. split; auto. split; auto. split; [lia|]. split; [|split].
  - intros I. apply (AInv_ptrs s1 s2); auto.
  - intros e a H. destruct (A5 e a H) as (X & r & Y & Z). split; auto. exists r. rewrite <- PA, <- R. auto.
  - intros e a. rewrite <- PA. auto.
Qed.

Lemma later_refl s : later s s.
Proof.
  split; [|split; exists []; now rewrite app_nil_r]. exists (fun _ _ => False), s. split; auto. apply seg_refl. tauto.
Qed.

Lemma later_trans s s1 s2 : later s s1 -> later s1 s2 -> later s s2.
Proof.
  intros ((Q & t & H & R & P) & (l & L) & (m & M)) ((Q' & t' & H' & R' & P') & (l' & L') & (m' & M')).
  split; [|split; [exists (l ++ l'); rewrite L', L; now rewrite app_assoc|exists (m ++ m'); rewrite M', M; now rewrite app_assoc]].
  exists (fun e a => Q e a \/ Q' e a), (mkAst (aRaw s2) (aPtrs s2) (aSend s) (aRecv s)). split; auto.
  pose proof H as (A1 & A2 & _). pose proof H' as (B1 & B2 & _).
  assert (H2 : seg Q' t (mkAst (aRaw s2) (aPtrs s2) (aSend s) (aRecv s))).
  { destruct H' as (_ & _ & A3 & A4 & A5 & A6). pose proof (ptrAt_ptrs _ _ P) as PT. 
    assert (PT' : forall e a, ptrAt t' e a = ptrAt (mkAst (aRaw s2) (aPtrs s2) (aSend s) (aRecv s)) e a) by (apply ptrAt_ptrs; auto).
    split; auto. split; auto. split; [cbn; lia|]. split; [|split].
    - intros I. apply (AInv_ptrs t'); auto. apply A4. apply (AInv_ptrs t); auto.
    - intros e a X. destruct (A5 e a X) as (Y & r & Z & W). rewrite PT. split; auto. exists r. rewrite <- PT'. cbn [aRaw]. split; [lia|auto].
    - intros e a. rewrite PT, <- PT'. auto. }
  exact (seg_trans _ _ _ _ _ H H2).
Qed.

Lemma inRgn_inside re x : inRgn re x = true <-> inside re x.
Proof. unfold inRgn, inside. rewrite andb_true_iff, Nat.leb_le, Nat.ltb_lt. tauto. Qed.

Lemma adjTg_ok nAd enAd sp tg g s s' : adjTg nAd enAd sp tg g s = Ok s' -> AInv s -> length (aSend s) = tg -> length (aRecv s) = tg ->
  length (tSend g) = length (tRecv g) ->
  AInv s' /\ later s s' /\ length (aSend s') = S tg /\ length (aRecv s') = S tg /\ forall s2, later s' s2 -> tg_ok nAd enAd sp s2 tg g.
Proof.
  unfold adjTg. intros E I LS LR LG.
  apply bind_ok in E as (s1 & E1 & E). apply bind_ok in E as (s2 & E2 & E). apply bind_ok in E as ((s3 & se) & E3 & E).
  apply bind_ok in E as ((s4 & re) & E4 & E). cbv zeta in E. injection E as <-.
  apply adjRgn_seg in E1. apply adjSendOther_seg in E2. apply adjSend_segs in E3; auto. apply adjRecv_segs in E4.
  assert (I1 : AInv s1) by now apply E1. assert (I2 : AInv s2) by now apply E2.
  pose proof (segs_seg _ _ _ _ E3) as E3'. pose proof (segs_seg _ _ _ _ E4) as E4'.
  assert (I3 : AInv s3) by now apply E3'. assert (I4 : AInv s4) by now apply E4'.
  set (s' := mkAst (aRaw s4) (aPtrs s4) (aSend s4 ++ [se ++ [aRaw s3]]) (aRecv s4 ++ [re ++ [aRaw s4]])).
  pose proof (seg_trans _ _ _ _ _ E1 (seg_trans _ _ _ _ _ E2 (seg_trans _ _ _ _ _ E3' E4'))) as E14. pose proof E14 as (Q1 & Q2 & _).
  split; [apply (AInv_ptrs s4 s'); auto|]. split; [|split; [|split]].
  - split; [eexists _, s4; split; [exact E14|split; reflexivity]|]. cbn [aSend aRecv s']. rewrite Q1, Q2. split; eexists; reflexivity.
  - cbn [aSend s']. rewrite app_length, Q1. cbn. lia.
  - cbn [aRecv s']. rewrite app_length, Q2. cbn. lia.
  - intros s5 ((Q & t & H & R & P) & (l & L) & (m & M)).
    (* the final state as continuation of s4 *)
    set (f := mkAst (aRaw s5) (aPtrs s5) (aSend s4) (aRecv s4)).
    assert (HF : seg Q s4 f).
    { destruct H as (_ & _ & A3 & A4 & A5 & A6). assert (PT : forall e a, ptrAt t e a = ptrAt f e a) by (apply ptrAt_ptrs; auto).
      split; auto. split; auto. cbn [aRaw s'] in A3. split; [cbn; lia|]. split; [|split].
      - intros _. apply (AInv_ptrs t f); auto.
      - intros e a X. destruct (A5 e a X) as (Y & r & Z & W). split; auto. exists r. rewrite <- PT. cbn [aRaw f s'] in *. split; [lia|auto].
      - intros e a. rewrite <- PT. apply (A6 e a). }
    assert (PF : forall e a, ptrAt s5 e a = ptrAt f e a) by (apply ptrAt_ptrs; auto).
    split; [|split].
    + (* owned *)
      intros r e a x Hr He Ha. rewrite PF.
      assert (EX : exists d, ptrAt s4 e a = Some (Some d)); [|destruct EX as (d & EX); exists d; now apply (seg_keep _ _ _ _ _ _ HF)].
      pose proof E14 as (_ & _ & _ & _ & A5 & _).
      assert (SEL : sel nAd enAd sp (tInner g) (fun _ => Ok true) e a \/ (selSend nAd enAd sp (fun re x => negb (inRgn re x)) (tSend g) (tRecv g) e a \/
         ((exists P, In P (map (fun '(se, re) => sel nAd enAd sp se (fun x => Ok (inRgn re x))) (combine (tSend g) (tRecv g))) /\ P e a) \/
          exists P, In P (map (fun re => sel nAd enAd sp re (recvTest tg (tInner g) (tOwn g))) (tRecv g)) /\ P e a))).
      { destruct Hr as [->|Hr].
        - left. split; auto. exists x. auto.
        - right. apply In_nth_error in Hr as (k & Hk).
          assert (KL : k < length (tRecv g)) by (rewrite <- LG; apply nth_error_Some; congruence).
          destruct (nth_error (tRecv g) k) as [rr|] eqn:Er; [|apply nth_error_None in Er; lia].
          destruct (inRgn rr x) eqn:Ei.
          + right. left. exists (sel nAd enAd sp r (fun x => Ok (inRgn rr x))). split.
            * apply in_map_iff. exists (r, rr). split; auto. apply nth_error_In with k. clear - Hk Er. revert k Hk Er. generalize (tRecv g). induction (tSend g); intros [|? ?] [|k]; cbn; intros; try discriminate; auto; congruence.
            * split; auto. exists x. rewrite Ei. auto.
          + left. exists k, r, rr. split; auto. split; auto. split; auto. exists x. rewrite Ei. auto. }
      destruct (A5 e a SEL) as (_ & d & _ & D). exists d. auto.
    + exists (se ++ [aRaw s3]). destruct (segs_range _ _ _ _ E3 I2) as (LL & SR). split; [|split].
      * rewrite L. cbn [aSend s']. rewrite Q1, nth_error_app1, nth_error_app2 by (rewrite ?app_length; cbn; lia). rewrite LS, Nat.sub_diag. reflexivity.
      * rewrite app_length, LL, map_length, combine_length. cbn. lia.
      * intros k se' re' K1 K2.
        assert (KC : nth_error (map (fun '(se, re) => sel nAd enAd sp se (fun x => Ok (inRgn re x))) (combine (tSend g) (tRecv g))) k =
           Some (sel nAd enAd sp se' (fun x => Ok (inRgn re' x)))).
        { rewrite nth_error_map. assert (C : nth_error (combine (tSend g) (tRecv g)) k = Some (se', re')).
          { clear - K1 K2. revert k K1 K2. generalize (tRecv g). induction (tSend g); intros [|? ?] [|k]; cbn; intros; try discriminate; auto; congruence. }
          rewrite C. reflexivity. }
        destruct (SR k _ KC) as (b & e & B1 & B2 & B3). exists b, e. split; auto. split; auto. intros en ad r X. rewrite PF in X.
        rewrite (B3 _ _ (seg_trans _ _ _ _ _ E4' HF) en ad r X). unfold sel. split.
        -- intros (Y & x & Z & W). split; auto. exists x. split; auto. apply inRgn_inside. congruence.
        -- intros (Y & x & Z & W). split; auto. exists x. split; auto. apply inRgn_inside in W. now rewrite W.
    + exists (re ++ [aRaw s4]). destruct (segs_range _ _ _ _ E4 I3) as (LL & SR). split; [|split].
      * rewrite M. cbn [aRecv s']. rewrite Q2, nth_error_app1, nth_error_app2 by (rewrite ?app_length; cbn; lia). rewrite LR, Nat.sub_diag. reflexivity.
      * rewrite app_length, LL, map_length. cbn. lia.
      * intros k re' K2.
        destruct (SR k (sel nAd enAd sp re' (recvTest tg (tInner g) (tOwn g)))) as (b & e & B1 & B2 & B3); [rewrite nth_error_map, K2; reflexivity|].
        exists b, e. split; auto. split; auto. intros en ad r X. rewrite PF in X.
        rewrite (B3 _ _ HF en ad r X). unfold sel, recvTest, check. split.
        -- intros (Y & x & Z & W). split; auto. destruct (Nat.leb_spec (rFirst (tInner g) + rSize (tInner g)) x) as [Lx|Lx]; cbn [bind] in W; [|discriminate].
           destruct (Nat.eqb_spec tg 0) as [T|T]; cbn [bind] in W; [|discriminate]. split; auto. exists x. split; auto. injection W as W. apply Nat.ltb_lt in W. lia.
        -- intros (Y & T & x & Z & W). split; auto. exists x. split; auto. subst tg. rewrite (proj2 (Nat.leb_le _ _)) by lia. cbn [bind]. rewrite T. cbn [Nat.eqb bind]. f_equal. apply Nat.ltb_lt. lia.
Qed.

Lemma adjTgs_ok nAd enAd sp : forall tgs tg s s', adjTgs nAd enAd sp tg tgs s = Ok s' -> AInv s -> length (aSend s) = tg -> length (aRecv s) = tg ->
  (forall g, In g tgs -> length (tSend g) = length (tRecv g)) ->
  AInv s' /\ later s s' /\ forall s2, later s' s2 -> forall k g, nth_error tgs k = Some g -> tg_ok nAd enAd sp s2 (tg + k) g.
Proof.
  induction tgs as [|g tgs IH]; intros tg s s' E I LS LR LG; cbn [adjTgs] in E.
  - injection E as <-. split; auto. split; [apply later_refl|]. intros s2 _ [|k]; discriminate.
  - apply bind_ok in E as (s1 & E1 & E2). destruct (adjTg_ok _ _ _ _ _ _ _ E1 I LS LR (LG g (or_introl eq_refl))) as (I1 & L1 & S1 & R1 & T1).
    destruct (IH _ _ _ E2 I1 S1 R1) as (I2 & L2 & T2); [intros; apply LG; now right|].
    split; auto. split; [now apply later_trans with s1|]. intros s2 L [|k] g' Hg; cbn [nth_error] in Hg.
    + injection Hg as <-. rewrite Nat.add_0_r. apply T1. now apply later_trans with s'.
    + replace (tg + S k) with (S tg + k) by lia. now apply T2.
Qed.

(** Whenever DataLayout::adj succeeds: the pointers address pairwise distinct chunks which use up the memory without gaps, all
    adjacencies of owned entities have data, and the data of every message is contiguous, between the pointers which are
    handed to the communication. *)
Theorem C22_adjacency_data nAd enAd l sp s : (forall g, In g (lTgs l) -> length (tSend g) = length (tRecv g)) ->
  adj nAd enAd l sp = Ok s ->
  (forall e a r, ptrAt s e a = Some (Some r) -> r < aRaw s) /\
  (forall e a e' a' r, ptrAt s e a = Some (Some r) -> ptrAt s e' a' = Some (Some r) -> e = e' /\ a = a') /\
  (forall r, r < aRaw s -> exists e a, ptrAt s e a = Some (Some r)) /\
  (forall tg g, nth_error (lTgs l) tg = Some g -> tg_ok nAd enAd sp s tg g).
Proof.
  intros LG E. unfold adj in E. set (s0 := mkAst 0 _ [] []) in E.
  assert (NL : forall e a x, ptrAt s0 e a = Some x -> x = None).
  { intros e a x. unfold ptrAt, s0. cbn [aPtrs]. destruct (nth_error (repeat (repeat None nAd) (lEnts l)) e) as [row|] eqn:R; [|discriminate].
    apply nth_error_In, repeat_spec in R. subst row. intros H. apply nth_error_In, repeat_spec in H. auto. }
  destruct (adjTgs_ok nAd enAd sp (lTgs l) 0 s0 s E) as ((I1 & I2 & I3) & _ & T); auto.
  { split; [|split].
    - intros e a r H. apply NL in H. discriminate.
    - intros e a e' a' r H. apply NL in H. discriminate.
    - cbn. intros; lia. }
  split; auto. split; auto. split; auto. intros tg g H. apply (T s (later_refl s) tg g H).
Qed.
Print Assumptions C22_adjacency_data.

(** 4 entities: 2 inner, 1 send, 1 receive; each adjacent to the previous and the next *)
Example C22_adj_ex : exists s, adj 2 [None; Some 1; Some 0; Some 2; Some 1; Some 3; Some 2; None]
    (mkLay 4 [mkTg 3 1 (mkRgn 0 2) [mkRgn 2 1] [mkRgn 3 1]]) None = Ok s /\
  aPtrs s = [[None; Some 0]; [Some 1; Some 2]; [Some 3; Some 4]; [Some 5; None]] /\ aSend s = [[4; 5]] /\ aRecv s = [[5; 6]].
Proof. eexists. split; [vm_compute; reflexivity|]. repeat split. Qed.
