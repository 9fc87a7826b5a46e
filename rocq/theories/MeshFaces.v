(** Proofs about the faces of a mesh: the constructor's connectivity before the normalization of the local order. *)
From Coq Require Import QArith Sorting.Sorted Sorting.Permutation.
From Verif Require Import Util Partition MeshConn MeshSpec MeshSort.
Open Scope nat_scope.

(** ** The list of faces *)

Lemma mapi_in {A B} (f : nat -> A -> B) l i y : In y (mapi f i l) <-> exists k a, nth_error l k = Some a /\ y = f (i + k) a.
Proof.
  split.
  - intros H. apply In_nth_error in H. destruct H as [k H]. rewrite nth_error_mapi in H.
    destruct (nth_error l k) as [a|] eqn:E; inversion H. eauto.
  - intros (k & a & E & ->). apply (nth_error_In _ k). rewrite nth_error_mapi, E. reflexivity.
Qed.

Lemma mkFaces_in E f : In f (mkFaces E) <->
  exists ves, get2 E (fcEl f) (fcFa f) = Some ves /\ fcVes f = sortNat ves.
Proof.
  unfold mkFaces, get2. rewrite in_concat. split.
  - intros (x & Hx & Hf). apply mapi_in in Hx. destruct Hx as (el & row & Er & ->).
    apply mapi_in in Hf. destruct Hf as (fa & ves & Ev & ->). cbn [fcEl fcFa fcVes plus]. rewrite Er. eauto.
  - intros (ves & H & Hv). destruct (nth_error E (fcEl f)) as [row|] eqn:Er; try discriminate.
    eexists. split; [apply mapi_in; exists (fcEl f), row; split; eauto|]. apply mapi_in. exists (fcFa f), ves. split; auto.
    destruct f as [el fa v]. cbn [fcEl fcFa fcVes plus] in *. subst. reflexivity.
Qed.

Definition pos (f : face) : nat * nat := (fcEl f, fcFa f).

Lemma NoDup_app_i {A} (l l' : list A) : NoDup l -> NoDup l' -> (forall x, In x l -> In x l' -> False) -> NoDup (l ++ l').
Proof.
  induction l as [|a l IH]; intros H H' D; cbn [app]; auto. inversion H; subst. constructor.
  - rewrite in_app_iff. intros [X|X]; [contradiction|]. apply (D a); cbn; auto.
  - apply IH; auto. intros x X X'. apply (D x); cbn; auto.
Qed.

Lemma mkFaces_pos E : NoDup (map pos (mkFaces E)).
Proof.
  unfold mkFaces. generalize 0 at 2. induction E as [|row E IH]; intros i; cbn [mapi concat map]; [constructor|].
  rewrite map_app. apply NoDup_app_i; auto.
  - generalize 0. induction row as [|v row IHr]; intros k; cbn [mapi map]; constructor; auto.
    intros H. apply in_map_iff in H. destruct H as (f & Ef & Hf). apply mapi_in in Hf. destruct Hf as (k' & v' & _ & ->).
    unfold pos in Ef. cbn [fcEl fcFa] in Ef. inversion Ef. lia.
  - intros p H H'. apply in_map_iff in H, H'. destruct H as (f & <- & H), H' as (f' & Ef & H').
    apply mapi_in in H. destruct H as (k & v & _ & ->). apply in_concat in H'. destruct H' as (x & Hx & Hf).
    apply mapi_in in Hx. destruct Hx as (k' & v' & _ & ->). apply mapi_in in Hf. destruct Hf as (k'' & v'' & _ & ->).
    unfold pos in Ef. cbn [fcEl fcFa] in Ef. inversion Ef. lia.
Qed.

(** ** Grouping of the sorted faces *)

Fixpoint grp (n : nat) (m : list face) : list (face * option face) :=
  match m with
  | [] => []
  | a :: m' => match m' with
               | [] => [(a, None)]
               | b :: m'' => if sameFace n a b then (a, Some b) :: grp n m'' else (a, None) :: grp n m'
               end
  end.

Definition flat (g : list (face * option face)) : list face :=
  concat (map (fun p => fst p :: match snd p with Some b => [b] | None => [] end) g).

Lemma grp_ind n (P : list face -> list (face * option face) -> Prop) :
  P [] [] ->
  (forall a, P [a] [(a, None)]) ->
  (forall a b m g, sameFace n a b = true -> g = grp n m -> P m g -> P (a :: b :: m) ((a, Some b) :: g)) ->
  (forall a b m g, sameFace n a b = false -> g = grp n (b :: m) -> P (b :: m) g -> P (a :: b :: m) ((a, None) :: g)) ->
  forall m, P m (grp n m).
Proof.
  intros H0 H1 H2 H3.
  assert (X : forall k m, length m <= k -> P m (grp n m)).
  { induction k as [|k IH]; intros m L.
    - destruct m; [exact H0|cbn in L; lia].
    - destruct m as [|a [|b m]]; [exact H0|exact (H1 a)|].
      change (grp n (a :: b :: m)) with (if sameFace n a b then (a, Some b) :: grp n m else (a, None) :: grp n (b :: m)).
      destruct (sameFace n a b) eqn:E; [apply H2|apply H3]; auto; apply IH; cbn in *; lia. }
  intros m. apply (X (length m)). auto.
Qed.

Lemma grp_flat n m : flat (grp n m) = m.
Proof.
  apply (grp_ind n (fun m g => flat g = m)); auto; intros; unfold flat in *; cbn [map concat fst snd app]; rewrite H1; reflexivity.
Qed.

Lemma sameFace_iff n a b : length (fcVes a) = n -> length (fcVes b) = n -> sameFace n a b = true <-> fcVes a = fcVes b.
Proof.
  intros La Lb. unfold sameFace. rewrite Nat.eqb_eq. revert n La Lb. generalize (fcVes a) (fcVes b). clear a b.
  induction l as [|x l IH]; intros [|y l'] n La Lb; cbn [length] in *; subst; try discriminate; [cbn; tauto|].
  cbn [combine filter fst snd]. destruct (Nat.eqb_spec x y) as [->|N]; cbn [length].
  - specialize (IH l' (length l) eq_refl ltac:(lia)). split; intros H.
    + f_equal. apply IH. lia.
    + injection H as H1. f_equal. apply IH; auto.
  - split; intros H; [exfalso|inversion H; congruence].
    assert (X : length (filter (fun p : nat * nat => fst p =? snd p) (combine l l')) <= length l).
    { clear. revert l'. induction l as [|x l IH]; intros [|y l']; cbn [combine filter length fst snd]; try lia.
      destruct (x =? y); cbn [length]; specialize (IH l'); lia. }
    lia.
Qed.

Definition sortedFaces (m : list face) : Prop := StronglySorted (fun a b => lexLt (fcVes b) (fcVes a) = false) m.
Definition lens (n : nat) (m : list face) : Prop := forall f, In f m -> length (fcVes f) = n.
(** at most two faces with the same vertices *)
Definition pairs (m : list face) : Prop :=
  forall a b c, In a m -> In b m -> In c m -> fcVes a = fcVes b -> fcVes b = fcVes c -> pos a = pos b \/ pos b = pos c \/ pos a = pos c.

Lemma adjacent_same n a b c m : lens n (a :: b :: m) -> sortedFaces (a :: b :: m) -> In c m -> fcVes c = fcVes a -> fcVes b = fcVes a.
Proof.
  intros L S Hc Ec. apply StronglySorted_inv in S. destruct S as [S Fa]. apply StronglySorted_inv in S. destruct S as [S Fb].
  rewrite Forall_forall in Fa, Fb. apply lexLt_total.
  - rewrite !L by (cbn; auto). reflexivity.
  - apply Fa. cbn; auto.
  - rewrite <- Ec. apply Fb. auto.
Qed.

(** Later faces have other vertices and are larger. *)
Lemma grp_lt n m : lens n m -> sortedFaces m -> pairs m -> NoDup (map pos m) ->
  StronglySorted (fun p q => lexLt (fcVes (fst p)) (fcVes (fst q)) = true) (grp n m).
Proof.
  apply (grp_ind n (fun m g => lens n m -> sortedFaces m -> pairs m -> NoDup (map pos m) ->
           StronglySorted (fun p q => lexLt (fcVes (fst p)) (fcVes (fst q)) = true) g)).
  - constructor.
  - repeat constructor.
  - intros a b m' g Es -> IH L S P ND. cbn [map] in ND.
    assert (La := L a (or_introl eq_refl)). assert (Lb := L b (or_intror (or_introl eq_refl))).
    apply sameFace_iff in Es; auto.
    pose proof S as S'. apply StronglySorted_inv in S'. destruct S' as [S1 Fa]. pose proof S1 as S1'.
    apply StronglySorted_inv in S1'. destruct S1' as [S2 Fb]. rewrite Forall_forall in Fa, Fb.
    apply NoDup_cons_iff in ND; destruct ND as [Na ND1]. apply NoDup_cons_iff in ND1; destruct ND1 as [Nb ND2].
    constructor.
    + apply IH; auto; [intros f Hf; apply L; cbn; auto|]. intros x y z Hx Hy Hz. apply P; cbn; auto.
    + apply Forall_forall. intros p Hp. cbn [fst].
      assert (Hm : In (fst p) m').
      { rewrite <- (grp_flat n m'). unfold flat. apply in_concat. eexists. split; [apply in_map; exact Hp|left; auto]. }
      destruct (lexLt (fcVes a) (fcVes (fst p))) eqn:E; auto. exfalso.
      assert (X : fcVes a = fcVes (fst p)).
      { apply lexLt_total; [rewrite La, L; cbn; auto|exact E|apply Fa; cbn; auto]. }
      destruct (P a b (fst p)) as [X1|[X1|X1]]; cbn; auto; try congruence.
      * apply Na. rewrite X1. left. auto.
      * apply Nb. rewrite X1. apply in_map. auto.
      * apply Na. rewrite X1. right. apply in_map. auto.
  - intros a b m' g Es -> IH L S P ND. cbn [map] in ND.
    assert (La := L a (or_introl eq_refl)). assert (Lb := L b (or_intror (or_introl eq_refl))).
    assert (Nab : fcVes a <> fcVes b) by (intros X; apply (sameFace_iff n a b La Lb) in X; congruence).
    pose proof S as S'. apply StronglySorted_inv in S'. destruct S' as [S1 Fa]. rewrite Forall_forall in Fa.
    apply NoDup_cons_iff in ND; destruct ND as [Na ND1].
    constructor.
    + apply IH; auto; [intros f Hf; apply L; cbn; auto|]. intros x y z Hx Hy Hz. apply P; cbn; auto.
    + apply Forall_forall. intros p Hp. cbn [fst].
      assert (Hm : In (fst p) (b :: m')).
      { rewrite <- (grp_flat n (b :: m')). unfold flat. apply in_concat. eexists. split; [apply in_map; exact Hp|left; auto]. }
      destruct (lexLt (fcVes a) (fcVes (fst p))) eqn:E; auto. exfalso.
      assert (X : fcVes a = fcVes (fst p)).
      { apply lexLt_total; [rewrite La, (L (fst p)); auto; right; auto|exact E|apply Fa; auto]. }
      destruct Hm as [Hm|Hm]; [congruence|]. apply Nab. symmetry. eapply adjacent_same with (c := fst p); eauto.
Qed.

(** Both faces of a group have the same vertices. *)
Lemma grp_same n m : lens n m -> forall a b, In (a, Some b) (grp n m) -> fcVes a = fcVes b.
Proof.
  apply (grp_ind n (fun m g => lens n m -> forall a b, In (a, Some b) g -> fcVes a = fcVes b)).
  - intros _ a b [].
  - intros a _ a' b [X|[]]. inversion X.
  - intros a b m' g Es -> IH L a' b' [X|X].
    + inversion X; subst. apply (sameFace_iff n) in Es; auto; apply L; cbn; auto.
    + apply IH; auto. intros f Hf. apply L; cbn; auto.
  - intros a b m' g Es -> IH L a' b' [X|X]; [inversion X|]. apply IH; auto. intros f Hf. apply L; cbn; auto.
Qed.

(** The number of faces. *)
Lemma nFas_ok n m : lens n m -> sortedFaces m -> pairs m -> NoDup (map pos m) ->
  nFasInt n m + (length m - nFasInt n m * 2) = length (grp n m) /\ nFasInt n m * 2 <= length m.
Proof.
  apply (grp_ind n (fun m g => lens n m -> sortedFaces m -> pairs m -> NoDup (map pos m) ->
           nFasInt n m + (length m - nFasInt n m * 2) = length g /\ nFasInt n m * 2 <= length m)).
  - cbn; lia.
  - cbn; lia.
  - intros a b m' g Es -> IH L S P ND. cbn [map] in ND.
    assert (La := L a (or_introl eq_refl)). assert (Lb := L b (or_intror (or_introl eq_refl))).
    apply NoDup_cons_iff in ND; destruct ND as [Na ND1]. apply NoDup_cons_iff in ND1; destruct ND1 as [Nb ND2].
    destruct IH as [IH1 IH2]; auto.
    { intros f Hf. apply L; cbn; auto. }
    { apply StronglySorted_inv in S. destruct S as [S _]. apply StronglySorted_inv in S. apply S. }
    { intros x y z Hx Hy Hz. apply P; cbn; auto. }
    assert (E : nFasInt n (a :: b :: m') = 1 + nFasInt n m').
    { cbn [nFasInt]. rewrite Es. destruct m' as [|c m']; [reflexivity|].
      destruct (sameFace n b c) eqn:Ec; [exfalso|reflexivity].
      apply (sameFace_iff n) in Es; auto. apply (sameFace_iff n) in Ec; auto; [|apply L; cbn; auto].
      destruct (P a b c) as [X1|[X1|X1]]; cbn; auto.
      - apply Na. rewrite X1. left. auto.
      - apply Nb. rewrite X1. left. auto.
      - apply Na. rewrite X1. right. left. auto. }
    rewrite E. cbn [length]. lia.
  - intros a b m' g Es -> IH L S P ND. cbn [map] in ND. apply NoDup_cons_iff in ND; destruct ND as [Na ND1].
    destruct IH as [IH1 IH2]; auto.
    { intros f Hf. apply L; cbn; auto. }
    { apply StronglySorted_inv in S. apply S. }
    { intros x y z Hx Hy Hz. apply P; cbn; auto. }
    change (nFasInt n (a :: b :: m')) with ((if sameFace n a b then 1 else 0) + nFasInt n (b :: m')). rewrite Es.
    change (length (a :: b :: m')) with (1 + length (b :: m')). change (length ((a, @None face) :: grp n (b :: m'))) with (1 + length (grp n (b :: m'))).
    lia.
Qed.

(** ** The assignment *)

Definition get (l : list (list (option nat))) (f : face) : option (option nat) := get2 l (fcEl f) (fcFa f).

(** State after the groups [g] of faces. *)
Record inv (E : list (list (list nat))) (nE : nat) (g rest : list (face * option face)) (c : conn) : Prop := mkInv {
  iMap : cMap c = length (flat g);
  iFaVe : cFaVe c = map (fun p => fcVes (fst p)) g;
  iFaEl : cFaEl c = map (fun p => (fcEl (fst p), option_map fcEl (snd p))) g;
  iSh1 : map (@length _) (cElFa c) = repeat nE (length E);
  iSh2 : map (@length _) (cElFaEl c) = repeat nE (length E);
  iFa1 : forall j a o, nth_error g j = Some (a, o) -> get (cElFa c) a = Some (Some j);
  iFa2 : forall j a b, nth_error g j = Some (a, Some b) -> get (cElFa c) b = Some (Some j);
  iEl0 : forall j a, nth_error g j = Some (a, None) -> get (cElFaEl c) a = Some None;
  iEl1 : forall j a b, nth_error g j = Some (a, Some b) -> get (cElFaEl c) a = Some (Some (fcEl b)) /\ get (cElFaEl c) b = Some (Some (fcEl a));
  iRest : forall f, In f (flat rest) -> get (cElFa c) f = Some None /\ get (cElFaEl c) f = Some None }.

Lemma flat_app g g' : flat (g ++ g') = flat g ++ flat g'.
Proof. unfold flat. rewrite map_app, concat_app. reflexivity. Qed.

Lemma flat_in g p : In p g -> In (fst p) (flat g).
Proof. intros H. unfold flat. apply in_concat. eexists. split; [apply in_map; exact H|left; auto]. Qed.

Lemma flat_in2 g a b : In (a, Some b) g -> In b (flat g).
Proof. intros H. unfold flat. apply in_concat. eexists. split; [apply in_map; exact H|right; left; auto]. Qed.

Lemma pos_eqb f f' : pos f <> pos f' -> (fcEl f =? fcEl f') && (fcFa f =? fcFa f') = false.
Proof.
  intros N. destruct (Nat.eqb_spec (fcEl f) (fcEl f')) as [E|E]; auto. destruct (Nat.eqb_spec (fcFa f) (fcFa f')) as [E'|E']; auto.
  exfalso. apply N. unfold pos. congruence.
Qed.

Lemma get_wr l f v x : get l f = Some x -> exists l', wr2 l (fcEl f) (fcFa f) v = Ok l' /\ map (@length _) l' = map (@length _) l /\
  get l' f = Some v /\ forall f', pos f' <> pos f -> get l' f' = get l f'.
Proof.
  intros H. destruct (wr2_ok l (fcEl f) (fcFa f) v x H) as (l' & E & S & G). exists l'. repeat split; auto.
  - unfold get. rewrite G, !Nat.eqb_refl. reflexivity.
  - intros f' N. unfold get. rewrite G, pos_eqb by auto. reflexivity.
Qed.

Lemma nth_error_snoc {A} (l : list A) x j y : nth_error (l ++ [x]) j = Some y -> nth_error l j = Some y \/ (j = length l /\ y = x).
Proof.
  intros H. destruct (lt_dec j (length l)) as [L|L].
  - rewrite nth_error_app1 in H by auto. auto.
  - rewrite nth_error_app2 in H by lia. right. destruct (j - length l) as [|k] eqn:E.
    + cbn in H. inversion H. split; auto. lia.
    + destruct k; discriminate.
Qed.

Lemma assign_ok E nE n m g a o rest c :
  flat (g ++ (a, o) :: rest) = m -> NoDup (map pos m) -> lens n m ->
  grp n (flat ((a, o) :: rest)) = (a, o) :: rest ->
  inv E nE g ((a, o) :: rest) c ->
  exists c', assignFace n m (length g) c = Ok c' /\ inv E nE (g ++ [(a, o)]) rest c'.
Proof.
  intros Em ND L G I. destruct I as [I1 I2 I3 I4 I5 I6 I7 I8 I9 I10].
  rewrite flat_app in Em. unfold assignFace. rewrite I1.
  assert (Ra : rd m (length (flat g)) = Ok a).
  { unfold rd. rewrite <- Em. rewrite nth_error_app2, Nat.sub_diag by lia. reflexivity. }
  assert (Ia : In a m).
  { rewrite <- Em. apply in_app_iff. right. apply (flat_in _ (a, o)). left; auto. }
  assert (Dis : forall f f', In f (flat g) -> In f' (flat ((a, o) :: rest)) -> pos f <> pos f').
  { intros f f' Hf Hf' X. rewrite <- Em, map_app in ND. eapply in_map with (f := pos) in Hf. eapply in_map with (f := pos) in Hf'.
    rewrite X in Hf. clear - ND Hf Hf'. induction (map pos (flat g)) as [|q l IH]; [destruct Hf|]. cbn [app] in ND. inversion ND; subst.
    destruct Hf as [->|Hf]; auto. apply H1. apply in_app_iff. auto. }
  assert (NDr : NoDup (map pos (flat ((a, o) :: rest)))).
  { rewrite <- Em, map_app in ND. clear - ND. induction (map pos (flat g)); auto. inversion ND; auto. }
  destruct (I10 a (flat_in ((a, o) :: rest) (a, o) (or_introl eq_refl))) as [Fa1 Fa2].
  destruct o as [b|].
  - (* internal *)
    assert (Fl : flat ((a, Some b) :: rest) = a :: b :: flat rest) by reflexivity.
    rewrite Fl in *. cbn [map] in NDr. apply NoDup_cons_iff in NDr; destruct NDr as [Na NDr']. subst m. apply NoDup_cons_iff in NDr'; destruct NDr' as [Nb NDr''].
    set (m := flat g ++ a :: b :: flat rest) in *.
    assert (Rb : rd m (length (flat g) + 1) = Ok b).
    { unfold rd, m. rewrite nth_error_app2 by lia. replace (length (flat g) + 1 - length (flat g)) with 1 by lia. reflexivity. }
    assert (Lm : length (flat g) <? length m - 1 = true).
    { apply Nat.ltb_lt. unfold m. rewrite app_length. cbn [length]. lia. }
    assert (Sab : sameFace n a b = true).
    { cbn [grp] in G. destruct (sameFace n a b); auto. inversion G. }
    rewrite Lm, Ra, Rb. cbn [bind]. rewrite Sab.
    destruct (I10 b) as [Fb1 Fb2]; [right; left; reflexivity|].
    assert (Nab : pos a <> pos b) by (intros X; apply Na; rewrite X; left; auto).
    destruct (get_wr (cElFa c) a (Some (length g)) None Fa1) as (l1 & W1 & S1 & G1 & D1). rewrite W1. cbn [bind].
    destruct (get_wr l1 b (Some (length g)) None) as (l2 & W2 & S2 & G2 & D2); [rewrite D1; auto|]. rewrite W2. cbn [bind].
    destruct (get_wr (cElFaEl c) a (Some (fcEl b)) None Fa2) as (l3 & W3 & S3 & G3 & D3). rewrite W3. cbn [bind].
    destruct (get_wr l3 b (Some (fcEl a)) None) as (l4 & W4 & S4 & G4 & D4); [rewrite D3; auto|]. rewrite W4. cbn [bind].
    eexists. split; [reflexivity|]. constructor; cbn [cMap cFaVe cFaEl cElFa cElFaEl].
    + rewrite flat_app, app_length. reflexivity.
    + rewrite map_app, I2. reflexivity.
    + rewrite map_app, I3. reflexivity.
    + congruence.
    + congruence.
    + intros j a' o' H. apply nth_error_snoc in H. destruct H as [H|[-> H]].
      * rewrite D2, D1; eauto; apply Dis; try (apply (flat_in g (a', o')); eapply nth_error_In; eauto); cbn; auto.
      * inversion H; subst. rewrite D2; auto.
    + intros j a' b' H. apply nth_error_snoc in H. destruct H as [H|[-> H]].
      * rewrite D2, D1; eauto; apply Dis; try (apply (flat_in2 g a' b'); eapply nth_error_In; eauto); cbn; auto.
      * inversion H; subst. auto.
    + intros j a' H. apply nth_error_snoc in H. destruct H as [H|[-> H]]; [|inversion H].
      rewrite D4, D3; eauto; apply Dis; try (apply (flat_in g (a', None)); eapply nth_error_In; eauto); cbn; auto.
    + intros j a' b' H. apply nth_error_snoc in H. destruct H as [H|[-> H]].
      * destruct (I9 _ _ _ H) as [X1 X2].
        assert (Ha' : In a' (flat g)) by (apply (flat_in g (a', Some b')); eapply nth_error_In; eauto).
        assert (Hb' : In b' (flat g)) by (eapply flat_in2; eapply nth_error_In; eauto).
        rewrite D4, D3, D4, D3 by (apply Dis; cbn; auto). auto.
      * inversion H; subst. split; auto. rewrite D4 by auto. auto.
    + intros f Hf.
      assert (N1 : pos f <> pos a) by (intros X; apply Na; right; rewrite <- X; apply in_map; auto).
      assert (N2 : pos f <> pos b) by (intros X; apply Nb; rewrite <- X; apply in_map; auto).
      rewrite D2, D1, D4, D3 by auto. apply I10. cbn; auto.
  - (* boundary *)
    assert (Fl : flat ((a, None) :: rest) = a :: flat rest) by reflexivity.
    rewrite Fl in *. cbn [map] in NDr. apply NoDup_cons_iff in NDr; destruct NDr as [Na NDr']. subst m.
    set (m := flat g ++ a :: flat rest) in *.
    assert (X : (if length (flat g) <? length m - 1 then f <- rd m (length (flat g)) ;; g0 <- rd m (length (flat g) + 1) ;; Ok (sameFace n f g0) else Ok false) = Ok false).
    { destruct (length (flat g) <? length m - 1) eqn:Lm; auto. apply Nat.ltb_lt in Lm. unfold m in Lm. rewrite app_length in Lm. cbn [length] in Lm.
      rewrite Ra. cbn [bind]. destruct (flat rest) as [|b fr] eqn:Er; [cbn in Lm; lia|].
      unfold rd, m. rewrite nth_error_app2 by lia. replace (length (flat g) + 1 - length (flat g)) with 1 by lia. cbn [nth_error bind].
      f_equal. cbn [grp] in G. destruct (sameFace n a b); auto. inversion G. }
    rewrite X. cbn [bind]. rewrite Ra. cbn [bind].
    destruct (get_wr (cElFa c) a (Some (length g)) None Fa1) as (l1 & W1 & S1 & G1 & D1). rewrite W1. cbn [bind].
    eexists. split; [reflexivity|]. constructor; cbn [cMap cFaVe cFaEl cElFa cElFaEl].
    + rewrite flat_app, app_length. reflexivity.
    + rewrite map_app, I2. reflexivity.
    + rewrite map_app, I3. reflexivity.
    + congruence.
    + congruence.
    + intros j a' o' H. apply nth_error_snoc in H. destruct H as [H|[-> H]].
      * rewrite D1; eauto; apply Dis; try (apply (flat_in g (a', o')); eapply nth_error_In; eauto); cbn; auto.
      * inversion H; subst. auto.
    + intros j a' b' H. apply nth_error_snoc in H. destruct H as [H|[-> H]]; [|inversion H].
      rewrite D1; eauto; apply Dis; try (apply (flat_in2 g a' b'); eapply nth_error_In; eauto); cbn; auto.
    + intros j a' H. apply nth_error_snoc in H. destruct H as [H|[-> H]]; [eauto|]. inversion H; subst. auto.
    + intros j a' b' H. apply nth_error_snoc in H. destruct H as [H|[-> H]]; [eauto|]. inversion H.
    + intros f Hf.
      assert (N1 : pos f <> pos a) by (intros Y; apply Na; rewrite <- Y; apply in_map; auto).
      rewrite D1 by auto. apply I10. cbn; auto.
Qed.

Lemma grp_suffix n m : forall g rest, grp n m = g ++ rest -> grp n (flat rest) = rest.
Proof.
  apply (grp_ind n (fun m G => forall g rest, G = g ++ rest -> grp n (flat rest) = rest)).
  - intros g rest H. symmetry in H. apply app_eq_nil in H. destruct H as [_ ->]. reflexivity.
  - intros a [|p g] rest H; cbn [app] in H.
    + subst. reflexivity.
    + inversion H as [[H1 H2]]. symmetry in H2. apply app_eq_nil in H2. destruct H2 as [_ ->]. reflexivity.
  - intros a b m' G Es -> IH [|p g] rest H; cbn [app] in H.
    + rewrite <- H. change (flat ((a, Some b) :: grp n m')) with (a :: b :: flat (grp n m')). rewrite grp_flat. cbn [grp]. rewrite Es. reflexivity.
    + inversion H. eapply IH. eassumption.
  - intros a b m' G Es -> IH [|p g] rest H; cbn [app] in H.
    + rewrite <- H. change (flat ((a, None) :: grp n (b :: m'))) with (a :: flat (grp n (b :: m'))). rewrite grp_flat.
      change (grp n (a :: b :: m')) with (if sameFace n a b then (a, Some b) :: grp n m' else (a, None) :: grp n (b :: m')). rewrite Es. reflexivity.
    + inversion H. eapply IH. eassumption.
Qed.

Lemma get2_in {A} (E : list (list A)) i j x : get2 E i j = Some x -> exists row, In row E /\ In x row.
Proof.
  unfold get2. destruct (nth_error E i) as [r|] eqn:Er; try discriminate. intros H. exists r. split; eapply nth_error_In; eauto.
Qed.

Lemma sortNat_perm_iff v v' : sortNat v = sortNat v' -> Permutation v v'.
Proof. intros H. eapply perm_trans; [apply sortNat_perm|]. rewrite H. apply Permutation_sym, sortNat_perm. Qed.

Lemma map_repeat' {A B} (f : A -> B) x n : map f (repeat x n) = repeat (f x) n.
Proof. induction n as [|n IH]; cbn; congruence. Qed.

Section Connect.
Variable srt : forall A : Type, (A -> A -> bool) -> list A -> list A.
Hypothesis SRT : isSort srt.

Lemma faces_sorted ty E : shaped ty E -> conforming E ->
  let m := srt face (fun a b => lexLt (fcVes a) (fcVes b)) (mkFaces E) in
  Permutation (mkFaces E) m /\ lens (nFaVes ty) m /\ sortedFaces m /\ pairs m /\ NoDup (map pos m).
Proof.
  intros Sh Cf m.
  assert (L0 : lens (nFaVes ty) (mkFaces E)).
  { intros f Hf. apply mkFaces_in in Hf. destruct Hf as (v & G & ->). rewrite sortNat_length.
    destruct (get2_in _ _ _ _ G) as (r & Hr & Hv). apply (Sh r Hr). auto. }
  destruct (SRT face (fun a b => lexLt (fcVes a) (fcVes b)) (mkFaces E)) as [P S].
  { split; intros a b.
    - intros _ _. apply lexLt_asym.
    - intros c Ha Hb Hc. apply lexLt_weak; rewrite !L0; auto. }
  fold m in P, S. assert (Q : forall f, In f m -> In f (mkFaces E)) by (intros f; apply Permutation_in, Permutation_sym; auto).
  split; auto. split; [intros f Hf; auto|]. split; [exact S|]. split.
  - intros a b c Ha Hb Hc E1 E2. apply Q, mkFaces_in in Ha, Hb, Hc.
    destruct Ha as (va & Ga & Va), Hb as (vb & Gb & Vb), Hc as (vc & Gc & Vc).
    apply (Cf _ _ va _ _ vb _ _ vc); auto; apply sortNat_perm_iff; congruence.
  - eapply Permutation_NoDup; [apply Permutation_map; exact P|apply mkFaces_pos].
Qed.

Lemma get2_none ty E i j x : shaped ty E -> get2 E i j = Some x ->
  get2 (repeat (repeat (@None nat) (nElFas ty)) (length E)) i j = Some None.
Proof.
  intros Sh. unfold get2. destruct (nth_error E i) as [r|] eqn:Er; try discriminate. intros H.
  rewrite nth_error_repeat by (apply nth_error_Some; congruence). apply nth_error_repeat.
  destruct (Sh r) as [<- _]; [eapply nth_error_In; eauto|]. apply nth_error_Some. congruence.
Qed.

(** The loop over the faces succeeds and establishes the invariant for all faces. *)
Lemma connect_inv ty E : shaped ty E -> conforming E ->
  let m := srt face (fun a b => lexLt (fcVes a) (fcVes b)) (mkFaces E) in
  exists c, connect srt ty E = Ok c /\ inv E (nElFas ty) (grp (nFaVes ty) m) [] c.
Proof.
  intros Sh Cf m. destruct (faces_sorted ty E Sh Cf) as (P & L & S & Pr & ND). fold m in P, L, S, Pr, ND.
  unfold connect. fold m. set (n := nFaVes ty) in *. destruct (nFas_ok n m L S Pr ND) as [-> _].
  set (G := grp n m). assert (FG : flat G = m) by apply grp_flat.
  assert (X : forall g rest c, G = g ++ rest -> inv E (nElFas ty) g rest c ->
            exists c', for_ (length g) (length G) (assignFace n m) c = Ok c' /\ inv E (nElFas ty) G [] c').
  { intros g rest. revert g. induction rest as [|[a o] rest IH]; intros g c HG I.
    - rewrite app_nil_r in HG. subst g. rewrite for_empty by lia. eauto.
    - assert (HG' := HG). replace (g ++ (a, o) :: rest) with ((g ++ [(a, o)]) ++ rest) in HG' by (rewrite <- app_assoc; reflexivity).
      destruct (assign_ok E (nElFas ty) n m g a o rest c) as (c' & E1 & I'); auto.
      { rewrite <- HG. exact FG. }
      { apply (grp_suffix n m g). exact HG. }
      rewrite for_step by (rewrite HG, app_length; cbn [length]; lia). rewrite E1. cbn [bind].
      destruct (IH (g ++ [(a, o)]) c' HG' I') as (c'' & E2 & I''). rewrite app_length in E2. cbn [length] in E2.
      replace (length g + 1) with (Datatypes.S (length g)) in E2 by lia. eauto. }
  apply (X [] G); auto. constructor; cbn [cMap cFaVe cFaEl cElFa cElFaEl]; auto.
  - rewrite map_repeat', repeat_length. reflexivity.
  - rewrite map_repeat', repeat_length. reflexivity.
  - intros [|j] a o H; discriminate.
  - intros [|j] a o H; discriminate.
  - intros [|j] a H; discriminate.
  - intros [|j] a b H; discriminate.
  - intros f Hf. rewrite FG in Hf. eapply Permutation_in in Hf; [|apply Permutation_sym; exact P].
    apply mkFaces_in in Hf. destruct Hf as (v & Gf & _). unfold get. erewrite get2_none by eauto. auto.
Qed.

End Connect.
