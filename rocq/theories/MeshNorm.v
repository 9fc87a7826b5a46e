(** Proofs about the normalization of the local order of vertices and faces. *)
From Coq Require Import QArith Qabs Sorting.Sorted Sorting.Permutation Lqa.
From Verif Require Import Util Partition MeshConn MeshSort.
Open Scope nat_scope.

(** ** Exchange of entries *)

Definition tr (i j k : nat) : nat := if k =? i then j else if k =? j then i else k.

Lemma swap_ok {A} (l : list A) i j : i < length l -> j < length l ->
  exists l', swap i j l = Ok l' /\ length l' = length l /\ forall k, nth_error l' k = nth_error l (tr i j k).
Proof.
  intros Hi Hj. unfold swap, rd.
  destruct (nth_error l i) as [a|] eqn:Ea; [|apply nth_error_None in Ea; lia].
  destruct (nth_error l j) as [b|] eqn:Eb; [|apply nth_error_None in Eb; lia].
  cbn [bind]. rewrite (wr_ok l i b Hi). cbn [bind]. rewrite wr_ok by (rewrite length_upd; auto).
  eexists. split; [reflexivity|]. split; [rewrite !length_upd; auto|]. intros k. unfold tr.
  destruct (Nat.eq_dec j k) as [<-|Nj].
  - rewrite nth_error_upd_eq by (rewrite length_upd; auto). rewrite Nat.eqb_refl. destruct (Nat.eqb_spec j i); congruence.
  - rewrite nth_error_upd_ne by auto. destruct (Nat.eqb_spec k i) as [->|Ni].
    + rewrite nth_error_upd_eq by auto. congruence.
    + rewrite nth_error_upd_ne by auto. destruct (Nat.eqb_spec k j); congruence.
Qed.

Lemma tr_inj i j k k' : tr i j k = tr i j k' -> k = k'.
Proof.
  unfold tr. destruct (Nat.eqb_spec k i), (Nat.eqb_spec k j), (Nat.eqb_spec k' i), (Nat.eqb_spec k' j); subst; auto; intros; congruence.
Qed.

Lemma nth_error_comb {A B} (l : list A) : forall (r : list B) k, length l = length r ->
  nth_error (combine l r) k = match nth_error l k, nth_error r k with Some a, Some b => Some (a, b) | _, _ => None end.
Proof.
  induction l as [|a l IH]; intros [|b r] [|k] H; cbn [length] in H; try discriminate; cbn [combine nth_error]; auto.
Qed.

Lemma perm_tr {A} (l l' : list A) i j : length l' = length l -> (forall k, nth_error l' k = nth_error l (tr i j k)) -> Permutation l l'.
Proof.
  intros L H. apply Permutation_nth_error. split; auto. exists (tr i j). split; auto. intros x y. apply tr_inj.
Qed.

Lemma nth_nth_error' {A} (l : list A) k d : nth k l d = match nth_error l k with Some x => x | None => d end.
Proof. revert k. induction l as [|a l IH]; intros [|k]; cbn; auto. Qed.

(** ** Sorting of an element's faces *)

Section SortFaces.
Variable faVe : list (list nat).
Variable nv : nat.

Definition keyAt (fa : list nat) (i : nat) : list nat := nth (nth i fa 0) faVe [].

(** All faces are known, have [nv] vertices and are pairwise different. *)
Definition good (fa : list nat) : Prop :=
  (forall i, i < length fa -> exists v, nth_error faVe (nth i fa 0) = Some v /\ length v = nv) /\
  (forall i j, i < length fa -> j < length fa -> i <> j -> keyAt fa i <> keyAt fa j).

Lemma lexLess_ok a : forall b, length a = length b -> a <> b -> lexLess a b = Ok (lexLt a b).
Proof.
  induction a as [|x a IH]; intros [|y b] L N; try discriminate; [congruence|]. cbn [lexLess lexLt length] in *.
  destruct (Nat.ltb_spec x y); auto. destruct (Nat.ltb_spec y x); auto. apply IH; [lia|]. intros ->. apply N. f_equal. lia.
Qed.

Lemma good_tr fa fa' i j : i < length fa -> j < length fa -> length fa' = length fa ->
  (forall k, nth_error fa' k = nth_error fa (tr i j k)) -> good fa -> good fa' /\ (forall k, keyAt fa' k = keyAt fa (tr i j k)).
Proof.
  intros Hi Hj L H [G1 G2].
  assert (K : forall k, nth k fa' 0 = nth (tr i j k) fa 0).
  { intros k. rewrite !nth_nth_error'. rewrite H. reflexivity. }
  assert (B : forall k, k < length fa -> tr i j k < length fa).
  { intros k Hk. unfold tr. destruct (k =? i); auto. destruct (k =? j); auto. }
  split; [split|].
  - intros k Hk. rewrite K. apply G1. apply B. lia.
  - intros k k' Hk Hk' N. unfold keyAt. rewrite !K. apply G2; try (apply B; lia). intros X. apply N. eapply tr_inj; eauto.
  - intros k. unfold keyAt. rewrite K. reflexivity.
Qed.

Definition sortInv n (fa0 : list nat) (ad0 : list (option nat)) (f0 f1 : nat) (s : list nat * list (option nat)) : Prop :=
  length (fst s) = n /\ length (snd s) = n /\ good (fst s) /\ Permutation (combine fa0 ad0) (combine (fst s) (snd s)) /\
  (forall i j, i < f0 -> i < j -> j < n -> lexLt (keyAt (fst s) i) (keyAt (fst s) j) = true) /\
  (forall j, f0 < j -> j < f1 -> lexLt (keyAt (fst s) f0) (keyAt (fst s) j) = true).

Lemma sortStep_ok n fa0 ad0 f0 f1 s : f0 < f1 -> f1 < n -> sortInv n fa0 ad0 f0 f1 s ->
  exists s', sortStep faVe f0 f1 s = Ok s' /\ sortInv n fa0 ad0 f0 (S f1) s'.
Proof.
  intros H01 H1n. destruct s as [fa ad]. unfold sortInv. cbn [fst snd]. intros (L1 & L2 & G & P & A & B).
  unfold sortStep. rewrite (rd_ok fa f0 0), (rd_ok fa f1 0) by lia. cbn [bind].
  destruct (proj1 G f1) as (v1 & E1 & N1); [lia|]. destruct (proj1 G f0) as (v0 & E0 & N0); [lia|].
  rewrite (rd_some _ _ _ E1), (rd_some _ _ _ E0). cbn [bind].
  assert (K1 : keyAt fa f1 = v1) by (unfold keyAt; erewrite nth_error_nth; eauto).
  assert (K0 : keyAt fa f0 = v0) by (unfold keyAt; erewrite nth_error_nth; eauto).
  assert (Nv : v1 <> v0) by (rewrite <- K1, <- K0; apply (proj2 G); lia).
  rewrite lexLess_ok by congruence. cbn [bind]. destruct (lexLt v1 v0) eqn:El.
  - destruct (swap_ok fa f0 f1) as (fa' & S1 & L1' & T1); try lia. rewrite S1. cbn [bind].
    destruct (swap_ok ad f0 f1) as (ad' & S2 & L2' & T2); try lia. rewrite S2. cbn [bind].
    destruct (good_tr fa fa' f0 f1) as [G' K]; auto; try lia.
    eexists. split; [reflexivity|]. cbn [fst snd]. split; [lia|]. split; [lia|]. split; [auto|]. split; [|split].
    + eapply perm_trans; [exact P|]. apply (perm_tr _ _ f0 f1).
      * rewrite !combine_length. lia.
      * intros k. rewrite !nth_error_comb by lia. rewrite T1, T2. reflexivity.
    + intros i j Hi Hj Hn. rewrite !K. replace (tr f0 f1 i) with i.
      * apply A; auto; unfold tr; destruct (Nat.eqb_spec j f0); try lia; destruct (Nat.eqb_spec j f1); lia.
      * unfold tr. destruct (Nat.eqb_spec i f0); try lia; destruct (Nat.eqb_spec i f1); lia.
    + intros j Hj Hs. rewrite !K. replace (tr f0 f1 f0) with f1 by (unfold tr; rewrite Nat.eqb_refl; auto).
      unfold tr. destruct (Nat.eqb_spec j f0); try lia. destruct (Nat.eqb_spec j f1) as [->|N].
      * rewrite K1, K0. auto.
      * rewrite K1. eapply lexLt_trans; [exact El|]. rewrite <- K0. apply B; lia.
  - eexists. split; [reflexivity|]. cbn [fst snd]. split; [auto|]. split; [auto|]. split; [auto|]. split; [auto|]. split; [auto|].
    intros j Hj Hs. destruct (Nat.eq_dec j f1) as [->|N]; [|apply B; lia].
    rewrite K0, K1. destruct (lexLt v0 v1) eqn:E; auto. exfalso. apply Nv. apply lexLt_total; congruence.
Qed.

Lemma sortFaces_ok n fa ad : length fa = n -> length ad = n -> good fa ->
  exists fa' ad', sortFaces n faVe (fa, ad) = Ok (fa', ad') /\ length fa' = n /\ length ad' = n /\ good fa' /\
    Permutation (combine fa ad) (combine fa' ad') /\
    (forall i j, i < j -> j < n -> lexLt (keyAt fa' i) (keyAt fa' j) = true).
Proof.
  intros L1 L2 G. unfold sortFaces.
  destruct (for_ok (fun f0 s => sortInv n fa ad f0 (f0 + 1) s) 0 n
              (fun f0 s => for_ (f0 + 1) n (fun f1 s => sortStep faVe f0 f1 s) s) (fa, ad)) as ((fa' & ad') & E & I).
  - lia.
  - unfold sortInv. cbn [fst snd]. repeat split; auto; try apply G; intros; lia.
  - intros f0 s H0 I.
    destruct (for_ok (fun f1 s => sortInv n fa ad f0 f1 s) (f0 + 1) n (fun f1 s => sortStep faVe f0 f1 s) s) as (s' & E & I').
    + lia.
    + exact I.
    + intros f1 s1 H1 I1. apply sortStep_ok; auto; lia.
    + exists s'. split; auto. destruct I' as (A1 & A2 & A3 & A4 & A5 & A6).
      split; [auto|]. split; [auto|]. split; [auto|]. split; [auto|]. split; [|intros; lia].
      intros i j Hi Hj Hn. destruct (Nat.eq_dec i f0) as [->|N]; [apply A6; auto|apply A5; auto; lia].
  - exists fa', ad'. split; auto. destruct I as (A1 & A2 & A3 & A4 & A5 & A6). cbn [fst snd] in *.
    split; [auto|]. split; [auto|]. split; [auto|]. split; [auto|]. intros i j Hij Hj. apply A5; lia.
Qed.
End SortFaces.

(** ** Monotone renaming *)

(** [g] is strictly monotone below [n]. *)
Definition mono (g : nat -> nat) (n : nat) : Prop := forall i j, i < j -> j < n -> g i < g j.

Lemma mono_ltb g n i j : mono g n -> i < n -> j < n -> (g i <? g j) = (i <? j).
Proof.
  intros M Hi Hj. destruct (Nat.ltb_spec i j) as [H|H].
  - apply Nat.ltb_lt. apply M; auto.
  - apply Nat.ltb_ge. destruct (Nat.eq_dec i j) as [->|N]; auto. specialize (M j i). lia.
Qed.

Lemma mono_lexLt g n : mono g n -> forall a b, Forall (fun x => x < n) a -> Forall (fun x => x < n) b ->
  lexLt (map g a) (map g b) = lexLt a b.
Proof.
  intros M. induction a as [|x a IH]; intros [|y b] Fa Fb; cbn [map lexLt]; auto.
  inversion Fa; inversion Fb; subst. rewrite !(mono_ltb g n) by auto. rewrite IH by auto. reflexivity.
Qed.

Lemma mono_insert g n x l : mono g n -> x < n -> Forall (fun x => x < n) l -> insertNat (g x) (map g l) = map g (insertNat x l).
Proof.
  intros M Hx. induction 1 as [|y l Hy F IH]; cbn [map insertNat]; auto.
  assert (E : (g x <=? g y) = (x <=? y)).
  { rewrite !Nat.leb_antisym. f_equal. apply (mono_ltb g n); auto. }
  rewrite E. destruct (x <=? y); cbn [map]; [reflexivity|]. f_equal. exact IH.
Qed.

Lemma mono_sort g n l : mono g n -> Forall (fun x => x < n) l -> sortNat (map g l) = map g (sortNat l).
Proof.
  intros M. induction 1 as [|x l Hx F IH]; auto. cbn [map sortNat fold_right]. fold (sortNat (map g l)). fold (sortNat l). rewrite IH.
  apply (mono_insert g n); auto. eapply Permutation_Forall; [apply sortNat_perm|exact F].
Qed.
