(** Sorting and two dimensional arrays: specification of std::sort and lemmas for the proofs about meshes. *)
From Coq Require Import QArith Sorting.Sorted Sorting.Permutation.
From Verif Require Import Util Partition MeshConn MeshSpec.
Open Scope nat_scope.

(** ** Specification of std::sort *)

(** The comparison is a strict weak order on the entries: asymmetric, and "not less" is transitive. *)
Definition strictWeak {A} (lt : A -> A -> bool) (l : list A) : Prop :=
  (forall a b, In a l -> In b l -> lt a b = true -> lt b a = false) /\
  (forall a b c, In a l -> In b l -> In c l -> lt b a = false -> lt c b = false -> lt c a = false).

(** std::sort: a permutation in which no entry is less than a previous one, provided that the comparison is a strict weak order. *)
Definition isSort (srt : forall A : Type, (A -> A -> bool) -> list A -> list A) : Prop :=
  forall A (lt : A -> A -> bool) l, strictWeak lt l ->
    Permutation l (srt A lt l) /\ StronglySorted (fun a b => lt b a = false) (srt A lt l).

(** Insertion sort is an instance. *)
Fixpoint insBy {A} (lt : A -> A -> bool) (x : A) (l : list A) : list A :=
  match l with [] => [x] | y :: l => if lt y x then y :: insBy lt x l else x :: y :: l end.
Definition insertionSort (A : Type) (lt : A -> A -> bool) (l : list A) : list A := fold_right (insBy lt) [] l.

Lemma insBy_perm {A} (lt : A -> A -> bool) x l : Permutation (x :: l) (insBy lt x l).
Proof.
  induction l as [|y l IH]; cbn [insBy]; auto. destruct (lt y x); auto.
  eapply perm_trans; [apply perm_swap|]. constructor. exact IH.
Qed.

Lemma insertionSort_isSort : isSort insertionSort.
Proof.
  intros A lt l W. induction l as [|x l IH]; cbn [insertionSort fold_right]; [split; constructor|].
  destruct IH as [P S].
  { destruct W as [W1 W2]. split; intros; [apply W1|eapply W2 with (b := b)]; cbn; auto. }
  fold (insertionSort A lt l). fold (insertionSort A lt l) in P, S. split.
  - eapply perm_trans; [|apply insBy_perm]. constructor. exact P.
  - assert (Q : forall y, In y (insertionSort A lt l) -> In y (x :: l)).
    { intros y Hy. right. eapply Permutation_in; [apply Permutation_sym; exact P|exact Hy]. }
    revert S Q. generalize (insertionSort A lt l). intros s S Q. clear P.
    induction s as [|y s IHs]; cbn [insBy]; [repeat constructor|].
    apply StronglySorted_inv in S. destruct S as [S F]. rewrite Forall_forall in F.
    destruct (lt y x) eqn:E.
    + constructor; [apply IHs; auto; intros; apply Q; cbn; auto|]. apply Forall_forall. intros z Hz.
      eapply Permutation_in in Hz; [|apply Permutation_sym, insBy_perm]. destruct Hz as [<-|Hz]; auto.
      destruct W as [W1 _]. apply W1; auto; [apply Q; left; auto|left; auto].
    + constructor; [constructor; auto; apply Forall_forall; auto|]. constructor; auto. apply Forall_forall. intros z Hz.
      destruct W as [_ W2]. apply (W2 x y z); auto; [left; auto|apply Q; left; auto|apply Q; right; auto].
Qed.

(** ** Lexicographic order *)

Lemma lexLt_irr a : lexLt a a = false.
Proof. induction a as [|x a IH]; cbn [lexLt]; auto. rewrite Nat.ltb_irrefl. exact IH. Qed.

Lemma lexLt_asym a : forall b, lexLt a b = true -> lexLt b a = false.
Proof.
  induction a as [|x a IH]; intros [|y b]; cbn [lexLt]; try discriminate.
  destruct (x <? y) eqn:E; destruct (y <? x) eqn:E'; auto; try discriminate.
  apply Nat.ltb_lt in E, E'. lia.
Qed.

Lemma lexLt_total a : forall b, length a = length b -> lexLt a b = false -> lexLt b a = false -> a = b.
Proof.
  induction a as [|x a IH]; intros [|y b]; cbn [lexLt length]; try discriminate; auto.
  destruct (x <? y) eqn:E; destruct (y <? x) eqn:E'; try discriminate. intros L H H'.
  apply Nat.ltb_ge in E, E'. f_equal; [lia|]. apply IH; auto.
Qed.

Lemma lexLt_trans a : forall b c, lexLt a b = true -> lexLt b c = true -> lexLt a c = true.
Proof.
  induction a as [|x a IH]; intros [|y b] [|z c]; cbn [lexLt]; try discriminate.
  destruct (x <? y) eqn:E1; destruct (y <? x) eqn:E2; destruct (y <? z) eqn:E3; destruct (z <? y) eqn:E4;
    destruct (x <? z) eqn:E5; destruct (z <? x) eqn:E6; auto; try discriminate;
    rewrite ?Nat.ltb_lt, ?Nat.ltb_ge in *; try lia. apply IH.
Qed.

Lemma lexLt_weak a b c : length a = length b -> length b = length c -> lexLt b a = false -> lexLt c b = false -> lexLt c a = false.
Proof.
  intros L1 L2 H1 H2. destruct (lexLt c a) eqn:E; auto.
  destruct (lexLt a b) eqn:E'.
  - rewrite (lexLt_trans c a b) in H2; auto.
  - assert (a = b) by (apply lexLt_total; auto). subst. congruence.
Qed.

(** ** Numbers *)

Lemma insertNat_perm x l : Permutation (x :: l) (insertNat x l).
Proof.
  induction l as [|y l IH]; cbn [insertNat]; auto. destruct (x <=? y); auto.
  eapply perm_trans; [apply perm_swap|]. constructor. exact IH.
Qed.

Lemma sortNat_perm l : Permutation l (sortNat l).
Proof.
  induction l as [|x l IH]; cbn [sortNat fold_right]; auto. fold (sortNat l).
  eapply perm_trans; [|apply insertNat_perm]. constructor. exact IH.
Qed.

Lemma sortNat_length l : length (sortNat l) = length l.
Proof. symmetry. apply Permutation_length, sortNat_perm. Qed.

Lemma insertNat_sorted x l : StronglySorted le l -> StronglySorted le (insertNat x l).
Proof.
  induction 1 as [|y l S IH F]; cbn [insertNat]; [repeat constructor|].
  destruct (x <=? y) eqn:E.
  - apply Nat.leb_le in E. constructor; [constructor; auto|]. constructor; auto.
    eapply Forall_impl; [|exact F]. intros; lia.
  - apply Nat.leb_gt in E. constructor; auto. apply Forall_forall. intros z Hz.
    eapply Permutation_in in Hz; [|apply Permutation_sym, insertNat_perm]. rewrite Forall_forall in F.
    destruct Hz as [<-|Hz]; [lia|auto].
Qed.

Lemma sortNat_sorted l : StronglySorted le (sortNat l).
Proof. induction l as [|x l IH]; cbn [sortNat fold_right]; [constructor|]. apply insertNat_sorted. exact IH. Qed.

(** A sorted permutation is unique for an antisymmetric order. *)
Lemma sorted_perm_unique {A} (R : A -> A -> Prop) :
  forall l l', (forall a b, In a l -> In b l -> R a b -> R b a -> a = b) ->
  StronglySorted R l -> StronglySorted R l' -> Permutation l l' -> l = l'.
Proof.
  induction l as [|a l IH]; intros l' An S S' P.
  - apply Permutation_nil in P. auto.
  - destruct l' as [|b l']; [apply Permutation_sym, Permutation_nil in P; discriminate|].
    apply StronglySorted_inv in S. apply StronglySorted_inv in S'. destruct S as [S F], S' as [S' F'].
    rewrite Forall_forall in F, F'.
    assert (a = b).
    { assert (Ha : In a (b :: l')) by (eapply Permutation_in; [exact P|left; auto]).
      assert (Hb : In b (a :: l)) by (eapply Permutation_in; [apply Permutation_sym; exact P|left; auto]).
      destruct Ha as [->|Ha]; auto. destruct Hb as [->|Hb]; auto. apply An; cbn; auto. }
    subst b. f_equal. apply IH; auto; [intros; apply An; cbn; auto|]. eapply Permutation_cons_inv. exact P.
Qed.

Lemma sortNat_unique l l' : Permutation l l' -> sortNat l = sortNat l'.
Proof.
  intros P. apply (sorted_perm_unique le); try apply sortNat_sorted; [intros; lia|].
  eapply perm_trans; [apply Permutation_sym, sortNat_perm|]. eapply perm_trans; [exact P|apply sortNat_perm].
Qed.

Lemma sortNat_id l : StronglySorted le l -> sortNat l = l.
Proof.
  intros S. apply (sorted_perm_unique le); auto; [intros; lia|apply sortNat_sorted|apply Permutation_sym, sortNat_perm].
Qed.

Lemma sortNat_idem l : sortNat (sortNat l) = sortNat l.
Proof. apply sortNat_id, sortNat_sorted. Qed.

(** ** Two dimensional arrays *)

Lemma rd2_get {A} (l : list (list A)) i j x : get2 l i j = Some x -> rd2 l i j = Ok x.
Proof.
  unfold get2, rd2, rd. destruct (nth_error l i) as [r|]; try discriminate. intros H. cbn. rewrite H. reflexivity.
Qed.

Lemma wr2_ok {A} (l : list (list A)) i j v x : get2 l i j = Some x ->
  exists l', wr2 l i j v = Ok l' /\ map (@length A) l' = map (@length A) l /\
    (forall i' j', get2 l' i' j' = if (i' =? i) && (j' =? j) then Some v else get2 l i' j').
Proof.
  unfold get2, wr2, rd. destruct (nth_error l i) as [r|] eqn:E; try discriminate. intros H.
  assert (Lj : j < length r) by (apply nth_error_Some; rewrite H; discriminate).
  assert (Li : i < length l) by (apply nth_error_Some; rewrite E; discriminate).
  unfold bind. rewrite (wr_ok r j v Lj). rewrite (wr_ok l i (upd r j v) Li). eexists. split; [reflexivity|]. split.
  - apply nth_error_ext'. intros k. rewrite !nth_error_map. destruct (Nat.eq_dec k i) as [->|N].
    + rewrite nth_error_upd_eq by auto. rewrite E. cbn [option_map]. rewrite length_upd. reflexivity.
    + rewrite nth_error_upd_ne by auto. reflexivity.
  - intros i' j'. destruct (Nat.eqb_spec i' i) as [->|N]; cbn [andb].
    + rewrite nth_error_upd_eq by auto. destruct (Nat.eqb_spec j' j) as [->|N'].
      * rewrite nth_error_upd_eq by auto. reflexivity.
      * rewrite nth_error_upd_ne by auto. rewrite E. reflexivity.
    + rewrite nth_error_upd_ne by auto. reflexivity.
Qed.

Lemma mapM_ok {A B} (f : A -> res B) (P : A -> B -> Prop) l :
  (forall a, In a l -> exists b, f a = Ok b /\ P a b) -> exists r, mapM f l = Ok r /\ Forall2 P l r.
Proof.
  induction l as [|a l IH]; intros H; cbn [mapM]; [exists []; split; auto|].
  destruct (H a (or_introl eq_refl)) as (b & E & Pb). rewrite E. cbn [bind].
  destruct IH as (r & E' & F); [intros; apply H; cbn; auto|]. rewrite E'. cbn [bind]. exists (b :: r). split; auto.
Qed.

Lemma mapM_inv {A B} (f : A -> res B) l : forall r, mapM f l = Ok r -> Forall2 (fun a b => f a = Ok b) l r.
Proof.
  induction l as [|a l IH]; cbn [mapM]; intros r H; [inversion H; constructor|].
  apply bind_ok in H. destruct H as (b & E & H). apply bind_ok in H. destruct H as (r' & E' & H). inversion H; subst.
  constructor; auto.
Qed.

Lemma mapM_map {A B} (f : A -> res B) (g : A -> B) l : (forall a, In a l -> f a = Ok (g a)) -> mapM f l = Ok (map g l).
Proof.
  induction l as [|a l IH]; intros H; cbn [mapM map]; auto. rewrite (H a) by (left; auto). cbn [bind].
  rewrite IH by (intros; apply H; right; auto). reflexivity.
Qed.

Lemma nth_error_mapi {A B} (f : nat -> A -> B) l : forall i k, nth_error (mapi f i l) k = option_map (f (i + k)) (nth_error l k).
Proof.
  induction l as [|a l IH]; intros i [|k]; cbn [mapi nth_error option_map]; auto.
  - rewrite Nat.add_0_r. reflexivity.
  - rewrite IH. do 2 f_equal. lia.
Qed.

Lemma length_mapi {A B} (f : nat -> A -> B) l : forall i, length (mapi f i l) = length l.
Proof. induction l as [|a l IH]; intros i; cbn; auto. Qed.
