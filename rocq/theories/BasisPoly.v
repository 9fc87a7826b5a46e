(** The polynomials of BasisSpec.v as integer polynomials. *)
From Coq Require Import List ZArith Reals Lra Lia Bool.
From Verif Require Import BasisEx BasisSpec.
Import ListNotations.

(** rows of Pascal's triangle *)
Definition nextRow (r : list Z) : list Z := 1%Z :: map (fun i => (nth i r 0 + nth (S i) r 0)%Z) (seq 0 (length r)).
Fixpoint pascalRow (n : nat) : list Z := match n with O => [1%Z] | S n => nextRow (pascalRow n) end.
Definition choose (n k : nat) : Z := nth k (pascalRow n) 0%Z.
Lemma pascalRow_length n : length (pascalRow n) = S n.
Proof. induction n as [|n IH]; [reflexivity|]. cbn [pascalRow nextRow length]. rewrite map_length, seq_length, IH. reflexivity. Qed.
Lemma choose_out n k : (n < k)%nat -> choose n k = 0%Z.
Proof. intros H. apply nth_overflow. rewrite pascalRow_length. lia. Qed.
Lemma choose_0 n : choose n 0 = 1%Z. Proof. destruct n; reflexivity. Qed.
Lemma choose_S n k : choose (S n) (S k) = (choose n k + choose n (S k))%Z.
Proof.
  unfold choose. cbn [pascalRow nextRow nth]. destruct (Nat.lt_ge_cases k (length (pascalRow n))) as [H|H].
  - rewrite (nth_indep _ 0%Z ((fun i => (nth i (pascalRow n) 0 + nth (S i) (pascalRow n) 0)%Z) 0%nat)) by (rewrite map_length, seq_length; exact H).
    rewrite (map_nth (fun i => (nth i (pascalRow n) 0 + nth (S i) (pascalRow n) 0)%Z)), seq_nth by exact H. reflexivity.
  - rewrite !nth_overflow; [reflexivity| | |]; rewrite ?map_length, ?seq_length; lia.
Qed.
Lemma choose_C n k : (k <= n)%nat -> IZR (choose n k) = C n k.
Proof.
  revert k; induction n as [|n IH]; intros k H.
  - replace k with 0%nat by lia. unfold C. cbn. field.
  - destruct k as [|k]; [rewrite choose_0; unfold C; rewrite Nat.sub_0_r; change (INR (fact 0)) with 1%R; pose proof (INR_fact_neq_0 (S n)); field; assumption|].
    rewrite choose_S, plus_IZR. destruct (Nat.eq_dec k n) as [->|N].
    + rewrite IH by lia. rewrite choose_out by lia. unfold C. rewrite !Nat.sub_diag. field; repeat split; apply INR_fact_neq_0.
    + rewrite !IH by lia. apply pascal. lia.
Qed.

Definition sub3 (p q : P3) : P3 := add3 p (opp3 q).
Definition scl3 (z : Z) (p : P3) : P3 := map (map (map (Z.mul z))) p.
Fixpoint sum3 (f : nat -> P3) (n : nat) : P3 := match n with O => f 0%nat | S n => add3 (sum3 f n) (f (S n)) end.
Definition homP (n a : nat) (u v : P3) : P3 := sum3 (fun m => scl3 (choose n m * choose (n + a + m) n) (mul3 (pow3 (sub3 u v) m) (pow3 v (n - m)))) n.
Definition X : P3 := var3 0. Definition Y : P3 := var3 1. Definition Zz : P3 := var3 2. Definition One : P3 := cst3 1.
Definition phiP (el : refEl) (m : mode) : P3 :=
  let '(p, q, r) := m in
  match el with
  | Line => homP p 0 X One
  | Quad => mul3 (homP p 0 X One) (homP q 0 Y One)
  | Tria => mul3 (homP p 0 X (sub3 One Y)) (homP q (2 * p + 1) Y One)
  | Hex => mul3 (mul3 (homP p 0 X One) (homP q 0 Y One)) (homP r 0 Zz One)
  | Tet => mul3 (mul3 (homP p 0 X (sub3 (sub3 One Y) Zz)) (homP q (2 * p + 1) Y (sub3 One Zz))) (homP r (2 * p + 2 * q + 2) Zz One)
  end.

Local Open Scope R_scope.
Section Ev.
Variable x : nat -> R.
Lemma ev3_sub p q : ev3 x (sub3 p q) = ev3 x p - ev3 x q. Proof. unfold sub3. rewrite ev3_add, ev3_opp. reflexivity. Qed.
Lemma peval_scl {A} (ev : A -> R) (f : A -> A) k t p : (forall a, ev (f a) = k * ev a) -> peval ev t (map f p) = k * peval ev t p.
Proof. intros H. induction p as [|a p IH]; cbn; [ring|]. rewrite H, IH. ring. Qed.
Lemma ev3_scl z p : ev3 x (scl3 z p) = IZR z * ev3 x p.
Proof. apply peval_scl. intros a. apply peval_scl. intros b. apply peval_scl. intros c. apply mult_IZR. Qed.
Lemma ev3_sum f n : ev3 x (sum3 f n) = sum_f_R0 (fun m => ev3 x (f m)) n.
Proof. induction n as [|n IH]; cbn [sum3 sum_f_R0]; [reflexivity|]. rewrite ev3_add, IH. reflexivity. Qed.
Lemma homP_ok n a u v : ev3 x (homP n a u v) = hom n a (ev3 x u) (ev3 x v).
Proof.
  unfold homP, hom. rewrite ev3_sum. apply sum_eq. intros m Hm. rewrite ev3_scl, ev3_mul, !ev3_pow, ev3_sub, mult_IZR, !choose_C by lia. ring.
Qed.
Lemma phiP_ok el m : ev3 x (phiP el m) = phi el m (x 0%nat) (x 1%nat) (x 2%nat).
Proof.
  assert (EX : ev3 x X = x 0%nat) by (apply ev3_var; lia). assert (EY : ev3 x Y = x 1%nat) by (apply ev3_var; lia). assert (EZ : ev3 x Zz = x 2%nat) by (apply ev3_var; lia).
  assert (E1 : ev3 x One = 1) by apply ev3_cst. destruct m as ((p & q) & r). unfold phiP, phi. destruct el; rewrite ?ev3_mul, ?homP_ok, ?ev3_sub, ?EX, ?EY, ?EZ, ?E1; reflexivity.
Qed.
End Ev.
