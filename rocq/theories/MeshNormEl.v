(** Proofs about the normalization of the elements: triangles, rectangles, tetrahedra and hexahedra. *)
From Coq Require Import QArith Qabs Sorting.Sorted Sorting.Permutation Lqa.
From Verif Require Import Util Partition MeshConn MeshSort MeshNorm MeshSpec.
Open Scope nat_scope.

Lemma Qltb_lt a b : Qltb a b = true <-> (a < b)%Q.
Proof.
  unfold Qltb. rewrite Bool.negb_true_iff. destruct (Qle_bool b a) eqn:E.
  - apply Qle_bool_iff in E. split; [discriminate|]. intros H. lra.
  - split; auto. intros _. apply Qnot_le_lt. intros H. apply Qle_bool_iff in H. congruence.
Qed.

Lemma Qltb_ge a b : Qltb a b = false <-> (b <= a)%Q.
Proof.
  split; intros H.
  - apply Qnot_lt_le. intros X. apply Qltb_lt in X. congruence.
  - destruct (Qltb a b) eqn:E; auto. apply Qltb_lt in E. lra.
Qed.

(** ** The keys of the sorted faces *)

Definition idxFaces (ty : elType) (lv : list nat) : list (list nat) :=
  insertionSort _ lexLt (facesOf ty lv).

Lemma refFaces_shape ty r : In r (refFaces ty) -> length r = nFaVes ty /\ Forall (fun i => i < nElVes ty) r.
Proof.
  destruct ty; cbn [refFaces In]; intros H; repeat (destruct H as [<-|H]; [split; [reflexivity|repeat constructor; cbn; lia]|]); destruct H.
Qed.

Lemma length_refFaces ty : length (refFaces ty) = nElFas ty.
Proof. destruct ty; reflexivity. Qed.

Lemma facesOf_len ty ps k : In k (facesOf ty ps) -> length k = nFaVes ty.
Proof.
  unfold facesOf. intros H. apply in_map_iff in H. destruct H as (r & <- & H). rewrite sortNat_length, map_length.
  apply (refFaces_shape ty r H).
Qed.

Lemma facesOf_map ty g lv : mono g (nElVes ty) -> Permutation lv (seq 0 (nElVes ty)) ->
  facesOf ty (map g lv) = map (map g) (facesOf ty lv).
Proof.
  intros M P. unfold facesOf. rewrite map_map. apply map_ext_in. intros r Hr. destruct (refFaces_shape ty r Hr) as [_ F].
  rewrite Forall_forall in F. assert (L : length lv = nElVes ty) by (rewrite (Permutation_length P), seq_length; auto).
  rewrite <- (mono_sort g (nElVes ty)); auto.
  - f_equal. rewrite map_map. apply map_ext_in. intros i Hi. rewrite <- (map_nth g). apply nth_indep. rewrite map_length, L. auto.
  - apply Forall_forall. intros x Hx. apply in_map_iff in Hx. destruct Hx as (i & <- & Hi).
    assert (In (nth i lv 0) (seq 0 (nElVes ty))) by (eapply Permutation_in; [exact P|apply nth_In; rewrite L; auto]).
    apply in_seq in H. lia.
Qed.

Lemma facesOf_lt ty lv k : Permutation lv (seq 0 (nElVes ty)) -> In k (facesOf ty lv) -> Forall (fun x => x < nElVes ty) k.
Proof.
  intros P H. unfold facesOf in H. apply in_map_iff in H. destruct H as (r & <- & Hr). destruct (refFaces_shape ty r Hr) as [_ F].
  rewrite Forall_forall in F. eapply Permutation_Forall; [apply sortNat_perm|]. apply Forall_forall. intros x Hx.
  apply in_map_iff in Hx. destruct Hx as (i & <- & Hi).
  assert (L : length lv = nElVes ty) by (rewrite (Permutation_length P), seq_length; auto).
  assert (In (nth i lv 0) (seq 0 (nElVes ty))) by (eapply Permutation_in; [exact P|apply nth_In; rewrite L; auto]).
  apply in_seq in H. lia.
Qed.

Lemma lex_unique n (k k' : list (list nat)) : (forall x, In x k -> length x = n) ->
  StronglySorted (fun a b => lexLt b a = false) k -> StronglySorted (fun a b => lexLt b a = false) k' -> Permutation k k' -> k = k'.
Proof.
  intros L S S' P. apply (sorted_perm_unique (fun a b => lexLt b a = false)); auto.
  intros a b Ha Hb H H'. apply lexLt_total; auto. rewrite !L; auto.
Qed.

Lemma idxFaces_sorted ty lv : StronglySorted (fun a b => lexLt b a = false) (idxFaces ty lv) /\ Permutation (facesOf ty lv) (idxFaces ty lv).
Proof.
  destruct (insertionSort_isSort _ lexLt (facesOf ty lv)) as [P S]; [|split; auto].
  split; intros a b; [intros _ _; apply lexLt_asym|]. intros c Ha Hb Hc. apply lexLt_weak; rewrite !(facesOf_len ty lv); auto.
Qed.

(** Strictly sorted keys of the faces of [map g lv] are determined by [lv]. *)
Lemma keys_idx ty g lv ks : mono g (nElVes ty) -> Permutation lv (seq 0 (nElVes ty)) ->
  StronglySorted (fun a b => lexLt b a = false) ks -> Permutation ks (facesOf ty (map g lv)) -> ks = map (map g) (idxFaces ty lv).
Proof.
  intros M P S Pk. destruct (idxFaces_sorted ty lv) as [S' P']. apply (lex_unique (nFaVes ty)); auto.
  - intros x Hx. apply (facesOf_len ty (map g lv)). eapply Permutation_in; eauto.
  - assert (F : forall k, In k (idxFaces ty lv) -> Forall (fun x => x < nElVes ty) k).
    { intros k Hk. apply (facesOf_lt ty lv); auto. eapply Permutation_in; [apply Permutation_sym; exact P'|auto]. }
    clear P'. induction S' as [|a l Sl IH Fa]; cbn [map]; constructor.
    + apply IH. intros; apply F; cbn; auto.
    + rewrite Forall_forall in Fa. apply Forall_forall. intros x Hx. apply in_map_iff in Hx. destruct Hx as (y & <- & Hy).
      rewrite (mono_lexLt g (nElVes ty)); auto; apply F; cbn; auto.
  - eapply perm_trans; [exact Pk|]. rewrite (facesOf_map ty g lv M P). apply Permutation_map. exact P'.
Qed.

(** ** Permutations of three and four entries *)

Lemma perms3 l : Permutation l [0; 1; 2] -> In l [[0;1;2]; [0;2;1]; [1;0;2]; [1;2;0]; [2;0;1]; [2;1;0]].
Proof.
  intros P. assert (L := Permutation_length P). destruct l as [|a [|b [|c [|]]]]; try discriminate.
  assert (ND : NoDup [a; b; c]) by (eapply Permutation_NoDup; [apply Permutation_sym; exact P|repeat constructor; cbn; lia]).
  assert (In3 : forall x, In x [a; b; c] -> x = 0 \/ x = 1 \/ x = 2).
  { intros x Hx. eapply Permutation_in in Hx; [|exact P]. cbn in Hx. intuition. }
  apply NoDup_cons_iff in ND. destruct ND as [Na ND]. apply NoDup_cons_iff in ND. destruct ND as [Nb ND].
  destruct (In3 a) as [-> | [-> | ->]]; [cbn; auto| | |]; (destruct (In3 b) as [-> | [-> | ->]]; [cbn; auto| | |]);
    (destruct (In3 c) as [-> | [-> | ->]]; [cbn; auto| | |]); cbn in *; tauto.
Qed.

Definition allPerms4 : list (list nat) :=
  [[0;1;2;3]; [0;1;3;2]; [0;2;1;3]; [0;2;3;1]; [0;3;1;2]; [0;3;2;1]; [1;0;2;3]; [1;0;3;2]; [1;2;0;3]; [1;2;3;0]; [1;3;0;2]; [1;3;2;0];
   [2;0;1;3]; [2;0;3;1]; [2;1;0;3]; [2;1;3;0]; [2;3;0;1]; [2;3;1;0]; [3;0;1;2]; [3;0;2;1]; [3;1;0;2]; [3;1;2;0]; [3;2;0;1]; [3;2;1;0]].

Lemma perms4 l : Permutation l [0; 1; 2; 3] -> In l allPerms4.
Proof.
  intros P. assert (L := Permutation_length P). destruct l as [|a [|b [|c [|d [|]]]]]; try discriminate.
  assert (ND : NoDup [a; b; c; d]) by (eapply Permutation_NoDup; [apply Permutation_sym; exact P|repeat constructor; cbn; lia]).
  assert (In4 : forall x, In x [a; b; c; d] -> x = 0 \/ x = 1 \/ x = 2 \/ x = 3).
  { intros x Hx. eapply Permutation_in in Hx; [|exact P]. cbn in Hx. intuition. }
  apply NoDup_cons_iff in ND. destruct ND as [Na ND]. apply NoDup_cons_iff in ND. destruct ND as [Nb ND].
  apply NoDup_cons_iff in ND. destruct ND as [Nc ND].
  assert (Ha := In4 a ltac:(cbn; auto)). assert (Hb := In4 b ltac:(cbn; auto)). assert (Hc := In4 c ltac:(cbn; auto)).
  assert (Hd := In4 d ltac:(cbn; auto)). clear In4 P L. unfold allPerms4.
  cbn [In] in Na, Nb, Nc.
  destruct Ha as [-> | [-> | [-> | ->]]]; destruct Hb as [-> | [-> | [-> | ->]]]; try (exfalso; tauto);
    destruct Hc as [-> | [-> | [-> | ->]]]; try (exfalso; tauto); destruct Hd as [-> | [-> | [-> | ->]]]; try (exfalso; tauto); cbn; tauto.
Qed.

(** Does the list [q] of positions map the sorted faces to the local faces of the vertices [lv']? *)
Definition okq (ty : elType) (lv lv' q : list nat) : Prop :=
  map (fun i => nth i (idxFaces ty lv) []) q = facesOf ty lv'.

Lemma perm_nth4 {A} (l : list A) : length l = 4 -> exists a b c d, l = [a; b; c; d].
Proof. destruct l as [|a [|b [|c [|d [|]]]]]; try discriminate. eauto. Qed.

Lemma perm_index (ve ps : list nat) : NoDup ve -> Permutation ve ps ->
  exists lv, Permutation lv (seq 0 (length ve)) /\ ps = map (fun i => nth i ve 0) lv.
Proof.
  intros ND P. apply Permutation_nth_error in P. destruct P as (L & f & Fi & Hf).
  exists (map f (seq 0 (length ve))). assert (B : forall k, k < length ve -> f k < length ve).
  { intros k Hk. apply nth_error_Some. rewrite <- Hf. apply nth_error_Some. lia. }
  split.
  - apply NoDup_Permutation_bis.
    + apply FinFun.Injective_map_NoDup; auto. apply seq_NoDup.
    + rewrite map_length. auto.
    + intros x Hx. apply in_map_iff in Hx. destruct Hx as (k & <- & Hk). apply in_seq in Hk. apply in_seq. specialize (B k). lia.
  - apply nth_error_ext'. intros k. rewrite map_map, nth_error_map. destruct (lt_dec k (length ve)) as [H|H].
    + rewrite nth_error_seq by auto. cbn [option_map plus]. rewrite Hf. apply nth_error_nth'. auto.
    + rewrite (proj2 (nth_error_None ps k)) by lia. rewrite (proj2 (nth_error_None (seq 0 (length ve)) k)) by (rewrite seq_length; lia). reflexivity.
Qed.

Lemma sorted_mono ve : NoDup ve -> mono (fun i => nth i (sortNat ve) 0) (length ve).
Proof.
  intros ND. assert (ND' : NoDup (sortNat ve)) by (eapply Permutation_NoDup; [apply sortNat_perm|exact ND]).
  assert (S := sortNat_sorted ve). rewrite <- (sortNat_length ve). revert ND' S. generalize (sortNat ve). clear ND ve.
  intros l ND S. induction S as [|a l S IH F]; intros i j Hij Hj; cbn [length] in *; [lia|].
  apply NoDup_cons_iff in ND. destruct ND as [Na ND]. rewrite Forall_forall in F. destruct j as [|j]; [lia|]. destruct i as [|i].
  - cbn [nth]. assert (Hin : In (nth j l 0) l) by (apply nth_In; lia). specialize (F _ Hin).
    assert (a <> nth j l 0) by (intros ->; auto). lia.
  - cbn [nth]. apply IH; auto; lia.
Qed.
