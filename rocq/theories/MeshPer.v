(** Proofs about periodic boundaries. *)
From Coq Require Import QArith Qabs Sorting.Sorted Sorting.Permutation.
From Verif Require Import Util Partition MeshConn MeshSort MeshFaces MeshNorm MeshSpec MeshNormEl.
Open Scope nat_scope.

Lemma filter_map_len {A} (g : A -> bool) l : length (filter (fun b : bool => b) (map g l)) = length (filter g l).
Proof. induction l as [|a l IH]; cbn [map filter]; auto. destruct (g a); cbn [length]; auto. Qed.

Lemma filter_len_all {A} (g : A -> bool) l n : length l = n -> (length (filter g l) =? n) = forallb g l.
Proof.
  intros <-. induction l as [|a l IH]; cbn [filter forallb length]; auto.
  assert (Hle : length (filter g l) <= length l) by (clear; induction l as [|b l IH]; cbn; auto; destruct (g b); cbn; lia).
  destruct (g a); cbn [length andb Nat.eqb]; auto. apply Nat.eqb_neq. lia.
Qed.

Lemma get2_shape' {A B} (l : list (list A)) (r : list (list B)) i j : map (@length _) l = map (@length _) r ->
  (get2 l i j <> None <-> get2 r i j <> None).
Proof.
  intros H. unfold get2. assert (E : option_map (@length _) (nth_error l i) = option_map (@length _) (nth_error r i)) by (rewrite <- !nth_error_map, H; auto).
  destruct (nth_error l i) as [a|], (nth_error r i) as [b|]; cbn in E; try discriminate; [|tauto]. injection E as E.
  rewrite !nth_error_Some. rewrite E. tauto.
Qed.

Section Per.
Variable tol : Q.
Variable ty : elType.
Variable crds : list pt.
Notation xyz := (xyz crds).
Notation d := (nDis ty).

(** all vertices of a face have the same coordinate in dimension [di] *)
Definition flatb (k : list nat) (di : nat) : bool :=
  forallb (fun p => eqCrd tol (crd (xyz (fst p)) di) (crd (xyz (snd p)) di)) (list_prod k k).
(** equal coordinates in all dimensions other than [di] *)
Definition matchb (di : nat) (p : nat * nat) : bool :=
  forallb (fun x => (x =? di) || eqCrd tol (crd (xyz (fst p)) x) (crd (xyz (snd p)) x)) (seq 0 d).

Definition planeb (k : list nat) : option nat := find (flatb k) (seq 0 d).
Definition partb (k g : list nat) : bool :=
  match planeb k, planeb g with
  | Some a, Some b => (a =? b) && (length (filter (matchb a) (list_prod k g)) =? nFaVes ty)
  | _, _ => false
  end.

Lemma eqCrd_sym a b : eqCrd tol a b = eqCrd tol b a.
Proof.
  unfold eqCrd, Qltb. rewrite (Qabs_Qminus a b). reflexivity.
Qed.

Definition inCrds (k : list nat) : Prop := length k = nFaVes ty /\ forall v, In v k -> v < length crds.

Lemma list_prod_len {A} (k g : list A) : length (list_prod k g) = length k * length g.
Proof. apply prod_length. Qed.

Lemma eqDi_ok k : inCrds k -> forall n di, eqDi tol crds (list_prod k k) (nFaVes ty * nFaVes ty) n di = Ok (find (flatb k) (seq di n)).
Proof.
  intros [L B]. induction n as [|n IH]; intros di; cbn [eqDi seq find]; auto.
  rewrite (mapM_map _ (fun p => eqCrd tol (crd (xyz (fst p)) di) (crd (xyz (snd p)) di))).
  - cbn [bind]. rewrite filter_map_len, filter_len_all by (rewrite list_prod_len; congruence).
    change (forallb _ (list_prod k k)) with (flatb k di). destruct (flatb k di); auto.
  - intros [v w] H. apply in_prod_iff in H. destruct H as [Hv Hw]. cbn [fst snd].
    rewrite (rd_ok crds v (0, 0, 0)%Q) by (apply B; auto). cbn [bind]. rewrite (rd_ok crds w (0, 0, 0)%Q) by (apply B; auto). reflexivity.
Qed.

Lemma match_count di a b : di < d ->
  (length (filter (fun x => negb (x =? di) && eqCrd tol (crd a x) (crd b x)) (seq 0 d)) =? d - 1)
  = forallb (fun x => (x =? di) || eqCrd tol (crd a x) (crd b x)) (seq 0 d).
Proof.
  destruct ty; cbn [nDis]; intros H; cbn [seq filter forallb];
    (destruct di as [|[|[|di]]]; [| | |lia]); cbn -[eqCrd crd]; try lia;
    repeat match goal with |- context [eqCrd tol ?x ?y] => destruct (eqCrd tol x y); cbn -[eqCrd crd] end; reflexivity.
Qed.

Lemma maVes_ok k g di : inCrds k -> inCrds g -> di < d ->
  maVes tol crds (list_prod k g) d (Some di) = Ok (length (filter (matchb di) (list_prod k g))).
Proof.
  intros [_ Bk] [_ Bg] Hd. unfold maVes. rewrite (mapM_map _ (matchb di)).
  - cbn [bind]. rewrite filter_map_len. reflexivity.
  - intros [v w] H. apply in_prod_iff in H. destruct H as [Hv Hw]. cbn [fst snd].
    rewrite (rd_ok crds v (0, 0, 0)%Q) by (apply Bk; auto). cbn [bind]. rewrite (rd_ok crds w (0, 0, 0)%Q) by (apply Bg; auto). cbn [bind].
    unfold matchb. cbn [fst snd]. f_equal. apply match_count. auto.
Qed.

Lemma matchb_sym di v w : matchb di (v, w) = matchb di (w, v).
Proof. unfold matchb. cbn [fst snd]. generalize (seq 0 d). induction l as [|x l IH]; cbn [forallb]; auto. rewrite IH, eqCrd_sym. reflexivity. Qed.

Lemma filter_prod_sym di (k g : list nat) : length (filter (matchb di) (list_prod k g)) = length (filter (matchb di) (list_prod g k)).
Proof.
  assert (One : forall v l, length (filter (matchb di) (map (fun y => (v, y)) l)) = length (filter (fun w => matchb di (v, w)) l)).
  { intros v l. induction l as [|w l IH]; cbn [map filter]; auto. destruct (matchb di (v, w)); cbn [length]; auto. }
  revert g. induction k as [|v k IH]; intros g; cbn [list_prod].
  - induction g as [|w g IHg]; cbn [list_prod map app]; auto.
  - rewrite filter_app, app_length, IH, One. clear IH One. induction g as [|w g IHg]; cbn [list_prod filter]; auto.
    cbn [map app filter]. rewrite filter_app, app_length. rewrite (matchb_sym di w v).
    destruct (matchb di (v, w)); cbn [length]; rewrite filter_app, app_length; lia.
Qed.

Lemma partb_sym k g : partb k g = partb g k.
Proof.
  unfold partb. destruct (planeb k) as [a|], (planeb g) as [b|]; auto. rewrite (Nat.eqb_sym b a).
  destruct (Nat.eqb_spec a b) as [->|N]; cbn [andb]; auto. rewrite filter_prod_sym. reflexivity.
Qed.

(** ** Partners *)
Variable faVe : list (list nat).
Hypothesis FV : forall k, In k faVe -> inCrds k.

Notation fk f := (nth f faVe []).
Definition part (bnd : list nat) (i j : nat) : bool := negb (i =? j) && partb (fk (nth i bnd 0)) (fk (nth j bnd 0)).
Definition partner (bnd : list nat) (i : nat) : option nat := find (part bnd i) (seq 0 (length bnd)).

Lemma find_seq_snoc (p : nat -> bool) n : find p (seq 0 (S n)) = match find p (seq 0 n) with Some x => Some x | None => if p n then Some n else None end.
Proof.
  rewrite seq_snoc. cbn [Nat.add]. generalize (seq 0 n). induction l as [|a l IH]; cbn [app find]; auto. destruct (p a); auto.
Qed.

Variable bnd : list nat.
Hypothesis BB : forall f, In f bnd -> f < length faVe.
Hypothesis PL : forall f, In f bnd -> exists a, planeb (fk f) = Some a.
Hypothesis UN : forall i j j', i < length bnd -> j < length bnd -> j' < length bnd -> part bnd i j = true -> part bnd i j' = true -> j = j'.

Lemma facePairs_ok f g : In f bnd -> In g bnd -> facePairs faVe f g = Ok (list_prod (fk f) (fk g)).
Proof. intros Hf Hg. unfold facePairs. rewrite (rd_ok faVe f []) by auto. cbn [bind]. rewrite (rd_ok faVe g []) by auto. reflexivity. Qed.

Lemma fk_in f : In f bnd -> inCrds (fk f).
Proof. intros H. apply FV. apply nth_In. auto. Qed.

Lemma findPairs_ok : findPairs tol ty crds faVe bnd = Ok (map (partner bnd) (seq 0 (length bnd))).
Proof.
  unfold findPairs. cbv zeta.
  assert (HL : exists prs, for_ 0 (length bnd) (fun f0 prs =>
    i0 <- rd bnd f0 ;; p00 <- facePairs faVe i0 i0 ;; d0 <- eqDi tol crds p00 (nFaVes ty * nFaVes ty) (nDis ty) 0 ;;
    prs <- for_ 0 (length bnd) (fun f1 prs =>
      i1 <- rd bnd f1 ;; p11 <- facePairs faVe i1 i1 ;; d1 <- eqDi tol crds p11 (nFaVes ty * nFaVes ty) (nDis ty) 0 ;;
      if eqOpt d0 d1 then
        p01 <- facePairs faVe i0 i1 ;; k <- maVes tol crds p01 (nDis ty) d0 ;;
        Ok (if negb (f0 =? f1) && (k =? nFaVes ty) then prs ++ [Some f1] else prs)
      else Ok prs) prs ;;
    Ok (if length prs =? f0 + 1 then prs else prs ++ [None])) [] = Ok prs /\ prs = map (partner bnd) (seq 0 (length bnd))).
  2:{ destruct HL as (prs & E & ->). exact E. }
  apply (for_ok (fun n prs => prs = map (partner bnd) (seq 0 n))); cbv beta; [lia|reflexivity|].
  intros f0 prs H0 ->. assert (I0 : In (nth f0 bnd 0) bnd) by (apply nth_In; lia).
  rewrite (rd_ok bnd f0 0) by lia. cbn [bind]. rewrite facePairs_ok by auto. cbn [bind]. rewrite eqDi_ok by (apply fk_in; auto). cbn [bind].
  set (base := map (partner bnd) (seq 0 f0)). assert (Lb : length base = f0) by (unfold base; rewrite map_length, seq_length; auto).
  match goal with |- context [for_ 0 (length bnd) ?B base] => 
    assert (HI : exists r, for_ 0 (length bnd) B base = Ok r /\
      r = base ++ match find (part bnd f0) (seq 0 (length bnd)) with Some x => [Some x] | None => [] end) end.
  { apply (for_ok (fun n r => r = base ++ match find (part bnd f0) (seq 0 n) with Some x => [Some x] | None => [] end)); cbv beta.
    - lia.
    - cbn. rewrite app_nil_r. reflexivity.
    - intros f1 r H1 ->. assert (I1 : In (nth f1 bnd 0) bnd) by (apply nth_In; lia).
      rewrite (rd_ok bnd f1 0) by lia. cbn [bind]. rewrite facePairs_ok by auto. cbn [bind]. rewrite eqDi_ok by (apply fk_in; auto). cbn [bind].
      fold (planeb (fk (nth f0 bnd 0))). fold (planeb (fk (nth f1 bnd 0))).
      destruct (PL _ I0) as [a Ea], (PL _ I1) as [b Eb]. rewrite Ea, Eb. cbn [eqOpt].
      rewrite <- Nat.add_1_r. rewrite Nat.add_1_r. rewrite find_seq_snoc.
      assert (Pd : part bnd f0 f1 = negb (f0 =? f1) && ((a =? b) && (length (filter (matchb a) (list_prod (fk (nth f0 bnd 0)) (fk (nth f1 bnd 0)))) =? nFaVes ty))).
      { unfold part, partb. rewrite Ea, Eb. reflexivity. }
      assert (Ad : a < d) by (apply find_some in Ea; destruct Ea as [Ha _]; apply in_seq in Ha; lia).
      assert (Uq : part bnd f0 f1 = true -> find (part bnd f0) (seq 0 f1) = None).
      { intros P. destruct (find (part bnd f0) (seq 0 f1)) as [x|] eqn:Ef; auto. apply find_some in Ef. destruct Ef as [Hx Px]. apply in_seq in Hx.
        assert (x = f1) by (apply (UN f0); auto; lia). lia. }
      destruct (Nat.eqb_spec a b) as [->|Nab].
      + rewrite facePairs_ok by auto. cbn [bind]. rewrite maVes_ok by (try apply fk_in; auto). cbn [bind].
        cbn [andb] in Pd. rewrite Pd in Uq. rewrite Pd. eexists. split; [reflexivity|].
        destruct (negb (f0 =? f1) && _) eqn:Ep.
        * rewrite (Uq eq_refl), app_nil_r. reflexivity.
        * destruct (find (part bnd f0) (seq 0 f1)); reflexivity.
      + cbn [andb] in Pd. rewrite Bool.andb_false_r in Pd. rewrite Pd. eexists. split; [reflexivity|].
        destruct (find (part bnd f0) (seq 0 f1)); reflexivity. }
  destruct HI as (r & -> & ->). cbn [bind]. eexists. split; [reflexivity|].
  rewrite app_length, Lb. change (find (part bnd f0) (seq 0 (length bnd))) with (partner bnd f0).
  rewrite seq_snoc, map_app. cbn [map Nat.add]. fold base.
  destruct (partner bnd f0) as [x|]; cbn [length].
  - rewrite Nat.eqb_refl. reflexivity.
  - rewrite Nat.add_0_r, app_nil_r. rewrite (proj2 (Nat.eqb_neq f0 (f0 + 1))) by lia. reflexivity.
Qed.

Lemma part_sym i j : part bnd i j = part bnd j i.
Proof. unfold part. rewrite partb_sym, Nat.eqb_sym. reflexivity. Qed.

Lemma partner_some i j : i < length bnd -> (partner bnd i = Some j <-> j < length bnd /\ part bnd i j = true).
Proof.
  intros Hi. unfold partner. split.
  - intros H. apply find_some in H. destruct H as [H P]. apply in_seq in H. split; auto. lia.
  - intros [Hj P]. destruct (find (part bnd i) (seq 0 (length bnd))) as [x|] eqn:E.
    + apply find_some in E. destruct E as [Hx Px]. apply in_seq in Hx. f_equal. apply (UN i); auto. lia.
    + exfalso. assert (In j (seq 0 (length bnd))) by (apply in_seq; lia). eapply find_none in E; eauto. congruence.
Qed.

Lemma nth_partner i : i < length bnd -> nth_error (map (partner bnd) (seq 0 (length bnd))) i = Some (partner bnd i).
Proof. intros H. rewrite nth_error_map, nth_error_seq by auto. reflexivity. Qed.

Lemma checkPairs_ok : checkPairs bnd (map (partner bnd) (seq 0 (length bnd))) = Ok tt.
Proof.
  unfold checkPairs. rewrite map_length, seq_length, Nat.eqb_refl. cbn [check bind].
  match goal with |- for_ ?a ?b ?B ?s = _ => destruct (for_ok (fun _ _ => True) a b B s) as ([] & E & _) end; auto; [lia|].
  intros i _ Hi _. rewrite (rd_some _ _ _ (nth_partner i (proj2 Hi))). cbn [bind].
  destruct (partner bnd i) as [g|] eqn:E; [|exists tt; auto]. apply partner_some in E; [|lia]. destruct E as [Hg P].
  rewrite (rd_some _ _ _ (nth_partner g Hg)). cbn [bind].
  rewrite part_sym in P. rewrite (proj2 (partner_some g i Hg)) by (split; [lia|auto]). rewrite Nat.eqb_refl. exists tt. auto.
Qed.

(** ** Insertion *)
Variable faEl : list (nat * option nat).
Variable elFa : list (list nat).
Variable elFaEl : list (list (option nat)).
Hypothesis LF : length faEl = length faVe.
Hypothesis ShE : map (@length _) elFa = map (@length _) elFaEl.
Hypothesis NDb : NoDup bnd.

Definition own (f : nat) : nat := fst (nth f faEl (0, None)).
Hypothesis OWN : forall f, In f bnd -> own f < length elFa /\ forall el k, get2 elFa el k = Some f -> el = own f.

(** partner of face [f] *)
Definition faPar (f : nat) : option nat :=
  if in_dec Nat.eq_dec f bnd then find (fun g => negb (f =? g) && partb (fk f) (fk g)) bnd else None.

Lemma find_map_seq (p : nat -> bool) : forall l, option_map (fun j => nth j l 0) (find (fun j => p (nth j l 0)) (seq 0 (length l))) = find p l.
Proof.
  induction l as [|a l IH]; auto. cbn [length seq find nth]. destruct (p a); auto. rewrite <- seq_shift, <- IH.
  generalize (seq 0 (length l)). clear. induction l0 as [|x l0 IH]; cbn [map find nth]; auto. destruct (p (nth x l 0)); auto.
Qed.

Lemma faPar_bnd i : i < length bnd -> faPar (nth i bnd 0) = option_map (fun j => nth j bnd 0) (partner bnd i).
Proof.
  intros Hi. unfold faPar. destruct (in_dec Nat.eq_dec (nth i bnd 0) bnd) as [H|H]; [|exfalso; apply H; apply nth_In; auto].
  rewrite <- find_map_seq. f_equal. unfold partner, part.
  assert (X : forall l, (forall j, In j l -> j < length bnd) -> find (fun j => negb (nth i bnd 0 =? nth j bnd 0) && partb (fk (nth i bnd 0)) (fk (nth j bnd 0))) l
              = find (fun j => negb (i =? j) && partb (fk (nth i bnd 0)) (fk (nth j bnd 0))) l).
  { induction l as [|j l IH]; intros Hl; cbn [find]; auto. rewrite IH by (intros; apply Hl; right; auto).
    assert (Hj : j < length bnd) by (apply Hl; left; auto).
    replace (nth i bnd 0 =? nth j bnd 0) with (i =? j); auto.
    destruct (Nat.eqb_spec i j) as [->|N]; [rewrite Nat.eqb_refl; auto|]. symmetry. apply Nat.eqb_neq. intros E. apply N.
    eapply NoDup_nth; eauto. }
  apply X. intros j Hj. apply in_seq in Hj. lia.
Qed.

Definition newFaEl (f : nat) : nat * option nat :=
  match faPar f with Some g => (own f, Some (own g)) | None => nth f faEl (0, None) end.

Definition newAdj (el k : nat) (o : option nat) : option nat :=
  match get2 elFa el k with
  | Some f => match faPar f with Some g => Some (own g) | None => o end
  | None => o
  end.

Definition isGt (f : nat) : bool := match faPar f with Some g => own g <? own f | None => false end.

Definition jinv (n : nat) (s : perState) : Prop :=
  let '(fe, ef, gt) := s in
  length fe = length faEl /\ map (@length _) ef = map (@length _) elFaEl /\
  (forall f, f < length faEl -> nth_error fe f = Some (if in_dec Nat.eq_dec f (firstn n bnd) then newFaEl f else nth f faEl (0, None))) /\
  (forall el k, get2 ef el k = match get2 elFaEl el k with
     | Some o => Some (match get2 elFa el k with Some f => if in_dec Nat.eq_dec f (firstn n bnd) then newAdj el k o else o | None => o end)
     | None => None end) /\
  gt = filter isGt (firstn n bnd).

Lemma in_firstn_S (f n : nat) x : nth_error bnd n = Some x -> In f (firstn (S n) bnd) <-> In f (firstn n bnd) \/ f = x.
Proof. intros H. rewrite (firstn_S_snoc _ _ _ H), in_app_iff. cbn [In]. intuition. Qed.

Lemma not_in_firstn n x : nth_error bnd n = Some x -> ~ In x (firstn n bnd).
Proof.
  intros H. apply nth_error_split in H. destruct H as (l1 & l2 & E & L). rewrite E in *. rewrite firstn_app, <- L, Nat.sub_diag, firstn_all.
  cbn [firstn]. rewrite app_nil_r. apply NoDup_remove_2 in NDb. rewrite in_app_iff in NDb. tauto.
Qed.

Lemma own_new n fe f : (forall f, f < length faEl -> nth_error fe f = Some (if in_dec Nat.eq_dec f (firstn n bnd) then newFaEl f else nth f faEl (0, None))) ->
  f < length faEl -> exists e, nth_error fe f = Some e /\ fst e = own f.
Proof.
  intros H Hf. rewrite (H f Hf). eexists. split; [reflexivity|]. destruct (in_dec _ _ _); auto. unfold newFaEl. destruct (faPar f); reflexivity.
Qed.

Lemma join_ok n s : n < length bnd -> jinv n s ->
  exists s', joinFace bnd (map (partner bnd) (seq 0 (length bnd))) elFa n s = Ok s' /\ jinv (S n) s'.
Proof.
  destruct s as [[fe ef] gt]. intros Hn (L & Sh & F & G & T). unfold joinFace. rewrite (rd_some _ _ _ (nth_partner n Hn)). cbn [bind].
  set (i0 := nth n bnd 0). assert (Ei0 : nth_error bnd n = Some i0) by (apply nth_error_nth'; auto).
  assert (P0 := faPar_bnd n Hn). fold i0 in P0. assert (Hi0 : In i0 bnd) by (apply nth_In; auto).
  assert (L0 : i0 < length faEl) by (rewrite LF; auto).
  assert (N0 := not_in_firstn n i0 Ei0).
  destruct (partner bnd n) as [f1|] eqn:Ep; cbn [option_map] in P0.
  - apply partner_some in Ep; auto. destruct Ep as [Hf1 _]. set (i1 := nth f1 bnd 0) in *.
    assert (Hi1 : In i1 bnd) by (apply nth_In; auto). assert (L1 : i1 < length faEl) by (rewrite LF; auto).
    rewrite (rd_ok bnd n 0) by auto. cbn [bind]. rewrite (rd_ok bnd f1 0) by auto. cbn [bind]. fold i0 i1.
    destruct (own_new n fe i0 F L0) as (e0 & E0 & O0). destruct (own_new n fe i1 F L1) as (e1 & E1 & O1).
    rewrite (rd_some _ _ _ E0). cbn [bind]. rewrite (rd_some _ _ _ E1). cbn [bind].
    rewrite wr_ok by (rewrite L; auto). cbn [bind]. rewrite O0, O1.
    destruct (OWN i0 Hi0) as [Oi U0]. rewrite (rd_ok elFa (own i0) []) by auto. cbn [bind]. set (row := nth (own i0) elFa []).
    assert (Er : nth_error elFa (own i0) = Some row) by (apply nth_error_nth'; auto).
    match goal with |- context [for_ 0 (length row) ?B ef] => 
      destruct (for_ok (fun m e => map (@length _) e = map (@length _) elFaEl /\ forall el k,
        get2 e el k = if (el =? own i0) && (k <? m) && (nth k row 0 =? i0) then Some (Some (own i1)) else get2 ef el k) 0 (length row) B ef) as (ef' & Ef' & Sh' & G') end.
    { lia. }
    { split; auto. intros el k. rewrite (proj2 (Nat.ltb_ge k 0)) by lia. rewrite Bool.andb_false_r. reflexivity. }
    { intros ad e Had [She Ge]. rewrite (rd_ok row ad 0) by lia. cbn [bind]. destruct (Nat.eqb_spec (nth ad row 0) i0) as [Ea|Na].
      - assert (Gx : get2 e (own i0) ad <> None).
        { apply (get2_shape' e elFa); [rewrite She; auto|]. unfold get2. rewrite Er. apply nth_error_Some. lia. }
        destruct (get2 e (own i0) ad) as [x|] eqn:Ex; [|congruence].
        destruct (wr2_ok e (own i0) ad (Some (own i1)) x Ex) as (e' & Ee' & Se' & Ge'). exists e'. split; [exact Ee'|]. split; [congruence|].
        intros el k. rewrite Ge', Ge. destruct (Nat.eqb_spec el (own i0)) as [->|Nel]; cbn [andb]; auto.
        destruct (Nat.eqb_spec k ad) as [->|Nk].
        + rewrite (proj2 (Nat.ltb_lt ad (S ad))) by lia. rewrite Ea, Nat.eqb_refl. reflexivity.
        + replace (k <? S ad) with (k <? ad); auto. destruct (Nat.ltb_spec k ad), (Nat.ltb_spec k (S ad)); auto; lia.
      - exists e. split; auto. split; auto. intros el k. rewrite Ge. destruct (Nat.eqb_spec el (own i0)); cbn [andb]; auto.
        destruct (Nat.eqb_spec k ad) as [->|Nk].
        + rewrite (proj2 (Nat.ltb_ge ad ad)) by lia. rewrite (proj2 (Nat.eqb_neq (nth ad row 0) i0) Na). rewrite !Bool.andb_false_r. reflexivity.
        + replace (k <? S ad) with (k <? ad); auto. destruct (Nat.ltb_spec k ad), (Nat.ltb_spec k (S ad)); auto; lia. }
    rewrite Ef'. cbn [bind]. eexists. split; [reflexivity|]. split; [rewrite length_upd; auto|]. split; [auto|]. split; [|split].
    + intros f Hf. destruct (Nat.eq_dec f i0) as [->|Nf].
      * rewrite nth_error_upd_eq by lia. f_equal. destruct (in_dec _ _ _) as [_|X]; [|exfalso; apply X, (in_firstn_S i0 n i0 Ei0); auto].
        unfold newFaEl. rewrite P0. reflexivity.
      * rewrite nth_error_upd_ne by auto. rewrite F by auto.
        destruct (in_dec Nat.eq_dec f (firstn n bnd)) as [X|X], (in_dec Nat.eq_dec f (firstn (S n) bnd)) as [Y|Y]; auto; rewrite (in_firstn_S f n i0 Ei0) in Y; tauto.
    + intros el k. rewrite G'. destruct ((el =? own i0) && (k <? length row) && (nth k row 0 =? i0)) eqn:Ec.
      * apply andb_prop in Ec. destruct Ec as [Ec E3]. apply andb_prop in Ec. destruct Ec as [Ec E2].
        apply Nat.eqb_eq in Ec, E3. apply Nat.ltb_lt in E2. subst el.
        assert (Gf : get2 elFa (own i0) k = Some i0) by (unfold get2; rewrite Er, <- E3; apply nth_error_nth'; auto).
        assert (Gx : get2 elFaEl (own i0) k <> None) by (apply (get2_shape' elFaEl elFa); [auto|congruence]).
        destruct (get2 elFaEl (own i0) k) as [x|]; [|congruence]. rewrite Gf. destruct (in_dec _ _ _) as [_|X]; [|exfalso; apply X, (in_firstn_S i0 n i0 Ei0); auto].
        unfold newAdj. rewrite Gf, P0. reflexivity.
      * rewrite G. destruct (get2 elFaEl el k) as [o|]; auto. destruct (get2 elFa el k) as [f|] eqn:Gf; auto.
        destruct (Nat.eq_dec f i0) as [->|Nf].
        -- exfalso. assert (el = own i0) by (apply (U0 el k); auto). subst el. unfold get2 in Gf. rewrite Er in Gf.
           assert (k < length row) by (apply nth_error_Some; congruence).
           rewrite Nat.eqb_refl, (proj2 (Nat.ltb_lt _ _) H), (nth_error_nth _ _ 0 Gf), Nat.eqb_refl in Ec. discriminate.
        -- destruct (in_dec Nat.eq_dec f (firstn n bnd)) as [X|X], (in_dec Nat.eq_dec f (firstn (S n) bnd)) as [Y|Y]; auto; rewrite (in_firstn_S f n i0 Ei0) in Y; tauto.
    + rewrite (firstn_S_snoc _ _ _ Ei0), filter_app. cbn [filter]. unfold isGt at 2. rewrite P0. rewrite T. destruct (own i1 <? own i0); auto. rewrite app_nil_r. reflexivity.
  - eexists. split; [reflexivity|]. split; [auto|]. split; [auto|]. split; [|split].
    + intros f Hf. rewrite F by auto.
      destruct (in_dec Nat.eq_dec f (firstn n bnd)) as [X|X], (in_dec Nat.eq_dec f (firstn (S n) bnd)) as [Y|Y]; auto; rewrite (in_firstn_S f n i0 Ei0) in Y; try tauto.
      destruct Y as [Y|Y]; [tauto|]. subst f. unfold newFaEl. rewrite P0. reflexivity.
    + intros el k. rewrite G. destruct (get2 elFaEl el k) as [o|]; auto. destruct (get2 elFa el k) as [f|] eqn:Gf; auto.
      destruct (in_dec Nat.eq_dec f (firstn n bnd)) as [X|X], (in_dec Nat.eq_dec f (firstn (S n) bnd)) as [Y|Y]; auto; rewrite (in_firstn_S f n i0 Ei0) in Y; try tauto.
      destruct Y as [Y|Y]; [tauto|]. subst f. unfold newAdj. rewrite Gf, P0. reflexivity.
    + rewrite (firstn_S_snoc _ _ _ Ei0), filter_app. cbn [filter]. unfold isGt at 2. rewrite P0. rewrite app_nil_r. exact T.
Qed.

Lemma joins_ok : exists fe ef gt,
  for_ 0 (length (map (partner bnd) (seq 0 (length bnd)))) (joinFace bnd (map (partner bnd) (seq 0 (length bnd))) elFa) (faEl, elFaEl, []) = Ok (fe, ef, gt) /\
  length fe = length faEl /\ map (@length _) ef = map (@length _) elFaEl /\
  (forall f, f < length faEl -> nth_error fe f = Some (newFaEl f)) /\
  (forall el k o, get2 elFaEl el k = Some o -> get2 ef el k = Some (newAdj el k o)) /\ gt = filter isGt bnd.
Proof.
  rewrite map_length, seq_length.
  destruct (for_ok jinv 0 (length bnd) (joinFace bnd (map (partner bnd) (seq 0 (length bnd))) elFa) (faEl, elFaEl, [])) as (s & E & I).
  - lia.
  - cbn [jinv firstn]. split; auto. split; auto. split; [|split; auto].
    + intros f Hf. rewrite (nth_error_nth' _ (0, None) Hf). reflexivity.
    + intros el k. destruct (get2 elFaEl el k); auto. destruct (get2 elFa el k); reflexivity.
  - intros i s Hi I. apply join_ok; [lia|auto].
  - destruct s as [[fe ef] gt]. destruct I as (L & Sh & F & G & T). exists fe, ef, gt. rewrite firstn_all in *. split; [exact E|].
    split; [auto|]. split; [auto|]. split; [|split; auto].
    + intros f Hf. rewrite F by auto. f_equal. destruct (in_dec _ _ _) as [X|X]; auto. unfold newFaEl, faPar.
      destruct (in_dec Nat.eq_dec f bnd); [contradiction|reflexivity].
    + intros el k o Ho. rewrite G, Ho. f_equal. unfold newAdj. destruct (get2 elFa el k) as [f|]; auto.
      unfold faPar. destruct (in_dec Nat.eq_dec f bnd); auto.
Qed.

End Per.
