(** Common vocabulary of the model: outcomes of C++ code, arrays, loops.

    Nothing in this file models a particular function of /repo; it fixes how C++ control flow is rendered:
    - [res]: a computation yields a value or stops.  [Eub] is undefined behaviour (access outside an array),
      [Echeck] is a failing EDGE_CHECK / EDGE_LOG_FATAL, [Efuel] marks exhausted fuel of a modelled while loop.
    - [rd], [wr]: array accesses with bounds.
    - [for_]: the loop  for( i = lo; i < hi; i++ ) body.
    - [forb]: the same loop whose body may [break]. *)
From Coq Require Export List Arith NArith ZArith Lia Bool.
From Coq Require Import ZifyBool ZifyNat ZifyN.
Export ListNotations.

Ltac Zify.zify_post_hook ::= Z.div_mod_to_equations.

Inductive err := Eub | Echeck | Efuel.

Inductive res (A : Type) : Type :=
| Ok (a : A)
| Er (e : err).
Arguments Ok {A} a.
Arguments Er {A} e.

Definition bind {A B} (x : res A) (f : A -> res B) : res B :=
  match x with Ok a => f a | Er e => Er e end.

Notation "x <- e ;; k" := (bind e (fun x => k)) (at level 61, e at next level, right associativity).
Notation "' p <- e ;; k" := (bind e (fun p => k)) (at level 61, p pattern, e at next level, right associativity).

Definition check (b : bool) : res unit := if b then Ok tt else Er Echeck.

(** arrays *)
Fixpoint upd {A} (l : list A) (i : nat) (v : A) : list A :=
  match l, i with
  | [], _ => []
  | _ :: l', O => v :: l'
  | x :: l', S i' => x :: upd l' i' v
  end.

Definition rd {A} (l : list A) (i : nat) : res A :=
  match nth_error l i with Some x => Ok x | None => Er Eub end.

Definition wr {A} (l : list A) (i : nat) (v : A) : res (list A) :=
  if i <? length l then Ok (upd l i v) else Er Eub.

(** loops *)
Fixpoint for_n {S : Type} (n i : nat) (body : nat -> S -> res S) (s : S) : res S :=
  match n with
  | O => Ok s
  | Datatypes.S n' => s' <- body i s ;; for_n n' (Datatypes.S i) body s'
  end.

Definition for_ {S : Type} (lo hi : nat) (body : nat -> S -> res S) (s : S) : res S :=
  for_n (hi - lo) lo body s.

(** body returns [true] as second component to break out of the loop after this iteration *)
Fixpoint forb_n {S : Type} (n i : nat) (body : nat -> S -> res (S * bool)) (s : S) : res S :=
  match n with
  | O => Ok s
  | Datatypes.S n' =>
      '(s', b) <- body i s ;; if (b : bool) then Ok s' else forb_n n' (Datatypes.S i) body s'
  end.

Definition forb {S : Type} (lo hi : nat) (body : nat -> S -> res (S * bool)) (s : S) : res S :=
  forb_n (hi - lo) lo body s.

(** * Lemmas *)

Lemma bind_ok {A B} (x : res A) (f : A -> res B) b :
  bind x f = Ok b <-> exists a, x = Ok a /\ f a = Ok b.
Proof.
  destruct x; simpl; split.
  - intros H; exists a; auto.
  - intros (a' & H & H'). inversion H; subst; auto.
  - discriminate.
  - intros (a' & H & _). discriminate.
Qed.

Lemma length_upd {A} (l : list A) i v : length (upd l i v) = length l.
Proof. revert i; induction l as [|x l IH]; intros [|i]; simpl; auto. Qed.

Lemma nth_error_upd_eq {A} (l : list A) i v : i < length l -> nth_error (upd l i v) i = Some v.
Proof.
  revert i; induction l as [|x l IH]; intros [|i]; simpl; intros H; try lia; auto.
  apply IH; lia.
Qed.

Lemma nth_error_upd_ne {A} (l : list A) i j v : i <> j -> nth_error (upd l i v) j = nth_error l j.
Proof.
  revert i j; induction l as [|x l IH]; intros [|i] [|j]; simpl; intros H; try lia; auto.
  all: try congruence.
Qed.

Lemma nth_upd_eq {A} (l : list A) i v d : i < length l -> nth i (upd l i v) d = v.
Proof.
  revert i; induction l as [|x l IH]; intros [|i]; simpl; intros H; try lia; auto.
  apply IH; lia.
Qed.

Lemma nth_upd_ne {A} (l : list A) i j v d : i <> j -> nth j (upd l i v) d = nth j l d.
Proof.
  revert i j; induction l as [|x l IH]; intros [|i] [|j]; simpl; intros H; try lia; auto.
Qed.

Lemma upd_app_r {A} (a b : list A) v : forall i, upd (a ++ b) (length a + i) v = a ++ upd b i v.
Proof. induction a as [|x a IH]; intros i; simpl; [auto | now rewrite IH]. Qed.

Lemma upd_app_cons {A} (a b : list A) x v : upd (a ++ x :: b) (length a) v = a ++ v :: b.
Proof. replace (length a) with (length a + 0) by lia. now rewrite upd_app_r. Qed.

Lemma rd_ok {A} (l : list A) i d : i < length l -> rd l i = Ok (nth i l d).
Proof.
  intros H. unfold rd. rewrite (nth_error_nth' l d H). reflexivity.
Qed.

Lemma rd_inv {A} (l : list A) i x : rd l i = Ok x -> nth_error l i = Some x.
Proof. unfold rd. destruct (nth_error l i); congruence. Qed.

Lemma rd_some {A} (l : list A) i x : nth_error l i = Some x -> rd l i = Ok x.
Proof. unfold rd. intros ->. reflexivity. Qed.

Lemma wr_ok {A} (l : list A) i v : i < length l -> wr l i v = Ok (upd l i v).
Proof. intros H. unfold wr. apply Nat.ltb_lt in H. now rewrite H. Qed.

Lemma wr_inv {A} (l : list A) i v l' : wr l i v = Ok l' -> i < length l /\ l' = upd l i v.
Proof.
  unfold wr. destruct (i <? length l) eqn:E; intros H; inversion H; subst.
  apply Nat.ltb_lt in E. auto.
Qed.

Lemma for_n_ok {S} (I : nat -> S -> Prop) body : forall n i s,
  I i s ->
  (forall k s, i <= k < i + n -> I k s -> exists s', body k s = Ok s' /\ I (Datatypes.S k) s') ->
  exists s', for_n n i body s = Ok s' /\ I (i + n) s'.
Proof.
  induction n as [|n IH]; intros i s Hi Hb; simpl.
  - exists s. rewrite Nat.add_0_r. auto.
  - destruct (Hb i s) as (s1 & E & H1); [lia | auto | ].
    rewrite E. simpl.
    destruct (IH (Datatypes.S i) s1 H1) as (s2 & E2 & H2).
    { intros k t Hk. apply Hb. lia. }
    exists s2. split; auto. replace (i + Datatypes.S n) with (Datatypes.S i + n) by lia. auto.
Qed.

(** total correctness of a for loop by an invariant *)
Lemma for_ok {S} (I : nat -> S -> Prop) lo hi body s :
  lo <= hi -> I lo s ->
  (forall k s, lo <= k < hi -> I k s -> exists s', body k s = Ok s' /\ I (Datatypes.S k) s') ->
  exists s', for_ lo hi body s = Ok s' /\ I hi s'.
Proof.
  intros Hle Hi Hb. unfold for_.
  destruct (for_n_ok I body (hi - lo) lo s Hi) as (s' & E & H).
  { intros k t Hk. apply Hb. lia. }
  exists s'. split; auto. replace (lo + (hi - lo)) with hi in H by lia. auto.
Qed.

Lemma for_n_inv {S} (I : nat -> S -> Prop) body : forall n i s s',
  for_n n i body s = Ok s' ->
  I i s ->
  (forall k s s', i <= k < i + n -> I k s -> body k s = Ok s' -> I (Datatypes.S k) s') ->
  I (i + n) s'.
Proof.
  induction n as [|n IH]; intros i s s' E Hi Hb; simpl in E.
  - inversion E; subst. now rewrite Nat.add_0_r.
  - apply bind_ok in E. destruct E as (s1 & E1 & E2).
    replace (i + Datatypes.S n) with (Datatypes.S i + n) by lia.
    eapply IH; eauto.
    + eapply Hb; eauto. lia.
    + intros k t t' Hk. apply Hb. lia.
Qed.

(** partial correctness of a for loop *)
Lemma for_inv {S} (I : nat -> S -> Prop) lo hi body s s' :
  lo <= hi -> for_ lo hi body s = Ok s' -> I lo s ->
  (forall k s s', lo <= k < hi -> I k s -> body k s = Ok s' -> I (Datatypes.S k) s') ->
  I hi s'.
Proof.
  intros Hle E Hi Hb. unfold for_ in E.
  replace hi with (lo + (hi - lo)) by lia.
  eapply for_n_inv; eauto. intros k t t' Hk. apply Hb. lia.
Qed.

Lemma for_empty {S} lo hi (body : nat -> S -> res S) s : hi <= lo -> for_ lo hi body s = Ok s.
Proof. intros H. unfold for_. replace (hi - lo) with 0 by lia. reflexivity. Qed.

Lemma for_step {S} lo hi (body : nat -> S -> res S) s :
  lo < hi -> for_ lo hi body s = (s' <- body lo s ;; for_ (Datatypes.S lo) hi body s').
Proof.
  intros H. unfold for_. replace (hi - lo) with (Datatypes.S (hi - Datatypes.S lo)) by lia. reflexivity.
Qed.

Lemma seq_snoc lo n : seq lo (S n) = seq lo n ++ [lo + n].
Proof. now rewrite seq_S. Qed.

Lemma nth_error_seq lo n i : i < n -> nth_error (seq lo n) i = Some (lo + i).
Proof.
  intros H. rewrite (nth_error_nth' _ 0) by (now rewrite seq_length).
  now rewrite seq_nth.
Qed.

Lemma firstn_S_snoc {A} (l : list A) n x : nth_error l n = Some x -> firstn (S n) l = firstn n l ++ [x].
Proof.
  revert n; induction l as [|y l IH]; intros [|n]; simpl; intros H; try discriminate.
  - inversion H; auto.
  - f_equal. now apply IH.
Qed.

Lemma list_sum_app l1 l2 : list_sum (l1 ++ l2) = list_sum l1 + list_sum l2.
Proof. induction l1 as [|a l1 IH]; simpl; lia. Qed.

Lemma nth_error_ext' {A} (l l' : list A) : (forall i, nth_error l i = nth_error l' i) -> l = l'.
Proof.
  revert l'; induction l as [|x l IH]; intros [|y l'] H; auto.
  - specialize (H 0); discriminate.
  - specialize (H 0); discriminate.
  - pose proof (H 0) as H0. simpl in H0. inversion H0; subst. f_equal.
    apply IH. intros i. apply (H (S i)).
Qed.

(** [loop I as s E H]: run the first loop of the goal with invariant [I]; leaves the three premises of
    [for_ok] and the goal with the final state [s], its equation [E] and [H : I hi s]. *)
Tactic Notation "loop" constr(I) "as" simple_intropattern(s) ident(E) simple_intropattern(H) :=
  match goal with
  | |- context [for_ ?lo ?hi ?b ?s0] =>
      let HL := fresh "HL" in
      assert (exists s', for_ lo hi b s0 = Ok s' /\ I hi s') as HL;
      [ apply (for_ok I); cbv beta
      | destruct HL as (s & E & H); rewrite E; clear E; cbn [bind] ]
  end.

Ltac rdn d := erewrite (rd_ok _ _ d) by (repeat rewrite ?length_upd; lia); cbn [bind].
Ltac wrn := rewrite wr_ok by (repeat rewrite ?length_upd; lia); cbn [bind].

Lemma upd_app_at {A} (a b : list A) x v k : k = length a -> upd (a ++ x :: b) k v = a ++ v :: b.
Proof. intros ->. apply upd_app_cons. Qed.

Lemma skipn_cons {A} m (l : list A) :
  m < length l -> exists x, nth_error l m = Some x /\ skipn m l = x :: skipn (m + 1) l.
Proof.
  revert l; induction m as [|m IH]; intros [|y l]; simpl; intros H; try lia; eauto.
  apply IH. lia.
Qed.

Lemma nth_error_upd {A} (l : list A) i j v :
  nth_error (upd l i v) j = if (i =? j) && (i <? length l) then Some v else nth_error l j.
Proof.
  destruct (Nat.eqb_spec i j) as [->|Hne]; simpl; [ | now apply nth_error_upd_ne ].
  destruct (Nat.ltb_spec j (length l)) as [H|H]; simpl.
  - now apply nth_error_upd_eq.
  - rewrite (proj2 (nth_error_None (upd l j v) j)), (proj2 (nth_error_None l j)); auto.
    now rewrite length_upd.
Qed.
