(** A least squares solver, which meets the contract of Eigen's solver the theorems about attenuation (C94) assume: the assumption is satisfiable for all sizes.  Not a model
    of code in /repo. *)
From Coq Require Import List Arith Bool Reals Lra Lia.
From Verif Require Import ElSpec ViscSpec ViscV.
Import ListNotations.
Open Scope R_scope.

Section LeastSq.
Variables (r : nat) (col : nat -> nat -> R).
Definition ip (u v : nat -> R) : R := sum r (fun i => u i * v i).
Definition comb (c : nat) (x : nat -> R) : nat -> R := fun i => sum c (fun j => x j * col j i).
Fixpoint ls (c : nat) (b : nat -> R) : nat -> R :=
  match c with
  | O => fun _ => 0
  | S c =>
    let p := ls c (col c) in let x := ls c b in let e := fun i => col c i - comb c p i in
    let t := if Req_EM_T (ip e e) 0 then 0 else ip e b / ip e e in
    fun j => if (j <? c)%nat then x j - t * p j else t
  end.
Lemma ip_comb u c x : ip u (comb c x) = sum c (fun j => x j * ip u (col j)).
Proof.
  induction c as [|c IH].
  - unfold comb. rewrite sum_0. apply sum_zero. intros. rewrite sum_0. ring.
  - rewrite sum_S, <- IH. unfold ip. rewrite <- sum_scal, <- sum_add. apply sum_ext. intros i Hi. unfold comb. rewrite sum_S. ring.
Qed.
Lemma ip_zero u v : ip u u = 0 -> ip v u = 0.
Proof.
  intros H. apply sum_zero. intros i Hi. rewrite (sumSq_zero r u) by (auto; unfold sumSq; fold (ip u u); lra). ring.
Qed.
Lemma ip_ext u u' v : (forall i, (i < r)%nat -> u i = u' i) -> ip u v = ip u' v.
Proof. intros H. apply sum_ext. intros i Hi. now rewrite H. Qed.
Lemma ip_ext_r u v v' : (forall i, (i < r)%nat -> v i = v' i) -> ip u v = ip u v'.
Proof. intros H. apply sum_ext. intros i Hi. now rewrite H. Qed.
Lemma ip_lin u v w a : ip (fun i => u i + a * v i) w = ip u w + a * ip v w.
Proof. unfold ip. rewrite <- sum_scal, <- sum_add. apply sum_ext. intros. ring. Qed.
Lemma ip_sym u v : ip u v = ip v u.
Proof. apply sum_ext. intros. ring. Qed.
Lemma ls_orth c : forall b j, (j < c)%nat -> ip (fun i => comb c (ls c b) i - b i) (col j) = 0.
Proof.
  induction c as [|c IH]; [lia|]. intros b j Hj. cbn [ls]. set (p := ls c (col c)). set (x := ls c b). set (e := fun i => col c i - comb c p i).
  set (t := if Req_EM_T (ip e e) 0 then 0 else ip e b / ip e e). set (rb := fun i => comb c x i - b i).
  assert (E : forall v, ip (fun i => comb (S c) (fun j => if (j <? c)%nat then x j - t * p j else t) i - b i) v = ip rb v + t * ip e v).
  { intros v. rewrite <- ip_lin. apply ip_ext. intros i Hi. unfold rb, e, comb. rewrite sum_S, Nat.ltb_irrefl.
    rewrite (sum_ext c (fun j => (if (j <? c)%nat then x j - t * p j else t) * col j i) (fun j => 1 * (x j * col j i) + (- t) * (p j * col j i))).
    - rewrite sum_lin. ring.
    - intros l Hl. replace (l <? c)%nat with true by (symmetry; apply Nat.ltb_lt; lia). ring. }
  rewrite E.
  assert (O1 : forall b l, (l < c)%nat -> ip (fun i => comb c (ls c b) i - b i) (col l) = 0) by exact IH.
  assert (O2 : forall l, (l < c)%nat -> ip e (col l) = 0).
  { intros l Hl. specialize (IH (col c) l Hl). fold p in IH. replace (ip e (col l)) with (0 + (- 1) * ip (fun i => comb c p i - col c i) (col l)); [rewrite IH; ring|].
    replace 0 with (ip (fun _ => 0) (col l)) by (apply sum_zero; intros; ring). rewrite <- ip_lin. apply ip_ext. intros. unfold e. ring. }
  destruct (Nat.eq_dec j c) as [->|Hn]; [|rewrite O2 by lia; unfold rb, x; rewrite O1 by lia; ring].
  assert (C : forall u, (forall l, (l < c)%nat -> ip u (col l) = 0) -> ip u (col c) = ip u e).
  { intros u Hu. assert (Z : ip u (comb c p) = 0) by (rewrite ip_comb; apply sum_zero; intros l Hl; rewrite Hu by exact Hl; ring).
    replace (ip u e) with (ip u (col c) - ip u (comb c p)); [rewrite Z; ring|]. rewrite !(ip_sym u). replace (ip e u) with (ip (col c) u + (-1) * ip (comb c p) u); [ring|]. rewrite <- ip_lin. apply ip_ext. intros. unfold e. ring. }
  rewrite (C rb) by (intros l Hl; now apply O1). rewrite (C e O2).
  assert (B : ip rb e = - ip e b).
  { replace (ip rb e) with (ip (comb c x) e + (-1) * ip b e) by (rewrite <- ip_lin; apply ip_ext; intros; unfold rb; ring). rewrite (ip_sym (comb c x)), ip_comb, (ip_sym b).
    rewrite sum_zero by (intros l Hl; rewrite O2 by exact Hl; ring). ring. }
  rewrite B. unfold t. destruct (Req_EM_T (ip e e) 0) as [Z|N]; [|field; exact N]. rewrite (ip_sym e b), (ip_zero e b Z). ring.
Qed.
Lemma orth_min c x y b : (forall j, (j < c)%nat -> ip (fun i => comb c x i - b i) (col j) = 0) -> sumSq r (fun i => comb c x i - b i) <= sumSq r (fun i => comb c y i - b i).
Proof.
  intros H. set (u := fun i => comb c x i - b i) in *. set (v := comb c (fun j => y j - x j)). assert (O : ip u v = 0) by (unfold v; rewrite ip_comb; apply sum_zero; intros j Hj; rewrite H by exact Hj; ring).
  assert (E : sumSq r (fun i => comb c y i - b i) = sumSq r u + (2 * ip u v + sumSq r v)).
  { unfold sumSq, ip. rewrite <- sum_scal, <- !sum_add. apply sum_ext. intros i Hi. replace (comb c y i - b i) with (u i + v i); [ring|]. unfold u, v, comb.
    rewrite (sum_ext c (fun j => (y j - x j) * col j i) (fun j => 1 * (y j * col j i) + (-1) * (x j * col j i))) by (intros; ring). rewrite sum_lin. ring. }
  rewrite E, O. assert (0 <= sumSq r v); [|lra]. clear. unfold sumSq. induction r as [|r' IH]; [rewrite sum_0; lra|]. rewrite sum_S. pose proof (Rle_0_sqr (v r')). unfold Rsqr in *. lra.
Qed.
End LeastSq.

Definition lsSolve (r c : nat) (a b : list R) : list R := map (ls r (fun j i => nth (i * c + j) a 0) c (fun i => nth i b 0)) (seq 0 c).
Theorem lsSolve_ok r c a b : leastSquares r c a b (lsSolve r c a b).
Proof.
  set (col := fun j i => nth (i * c + j) a 0). set (bb := fun i => nth i b 0).
  assert (E : forall x i, residual c a b x i = comb col c (fun j => nth j x 0) i - bb i) by (intros; unfold residual, comb, col, bb; f_equal; apply sum_ext; intros; ring).
  split; [unfold lsSolve; now rewrite map_length, seq_length|]. intros y Hy.
  rewrite (sumSq_ext r (residual c a b y) _ (fun i Hi => E y i)), (sumSq_ext r (residual c a b (lsSolve r c a b)) (fun i => comb col c (ls r col c bb) i - bb i)).
  - apply orth_min. intros j Hj. now apply ls_orth.
  - intros i Hi. rewrite E. f_equal. apply sum_ext. intros j Hj. unfold lsSolve. rewrite nth_map_seq by exact Hj. reflexivity.
Qed.
