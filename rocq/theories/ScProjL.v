(** Proofs about the projections: means over the sub-cells of a line determine polynomials. *)
From Coq Require Import List Arith Bool Reals Lra Lia.
From Verif Require Import ElSpec ElWave ScProj ScProjSpec ScProjV.
Import ListNotations.
Open Scope R_scope.

(** ** Polynomials *)
Fixpoint padd (l m : list R) : list R := match l, m with [], _ => m | _, [] => l | a :: l, b :: m => (a + b) :: padd l m end.
Lemma peval_add l : forall m x, peval (padd l m) x = peval l x + peval m x.
Proof. induction l as [|a l IH]; intros [|b m] x; cbn [padd]; unfold peval in *; cbn [fold_right]; try ring. rewrite IH. ring. Qed.
Lemma len_padd l : forall m, length (padd l m) = Nat.max (length l) (length m).
Proof. induction l as [|a l IH]; intros [|b m]; cbn; auto. Qed.
Lemma peval_scal c l x : peval (map (Rmult c) l) x = c * peval l x.
Proof. induction l as [|a l IH]; unfold peval in *; cbn; [ring|]. rewrite IH. ring. Qed.
Fixpoint pcomp (a b : R) (l : list R) : list R := match l with [] => [] | c :: l => let q := pcomp a b l in padd [c] (padd (map (Rmult a) q) (0 :: map (Rmult b) q)) end.
Lemma peval_comp a b l x : peval (pcomp a b l) x = peval l (a + b * x).
Proof. induction l as [|c l IH]; [reflexivity|]. cbn [pcomp]. rewrite !peval_add, peval_scal. change (peval (0 :: ?m) x) with (0 + x * peval m x). change (peval (c :: l) ?y) with (c + y * peval l y). change (peval [c] x) with (c + x * 0). change (peval (0 :: map (Rmult b) (pcomp a b l)) x) with (0 + x * peval (map (Rmult b) (pcomp a b l)) x). rewrite peval_scal, IH. ring. Qed.
Lemma len_pcomp a b l : (length (pcomp a b l) <= length l)%nat.
Proof. induction l as [|c l IH]; cbn [pcomp]; auto. rewrite !len_padd. cbn [length]. rewrite !map_length. lia. Qed.
(** division by a linear factor *)
Fixpoint pdiv (a : R) (l : list R) : list R := match l with [] => [] | [_] => [] | _ :: l => peval l a :: pdiv a l end.
Lemma peval_div a l x : peval l x - peval l a = (x - a) * peval (pdiv a l) x.
Proof.
  induction l as [|c l IH]; [cbn; ring|]. destruct l as [|d l]; [cbn; ring|]. set (m := d :: l) in *. change (pdiv a (c :: m)) with (peval m a :: pdiv a m). change (peval (c :: m) x) with (c + x * peval m x). change (peval (c :: m) a) with (c + a * peval m a). change (peval (peval m a :: pdiv a m) x) with (peval m a + x * peval (pdiv a m) x).
  replace (c + x * peval m x - (c + a * peval m a)) with (x * (peval m x - peval m a) + (x - a) * peval m a) by ring. rewrite IH. ring.
Qed.
Lemma len_pdiv a l : length (pdiv a l) = pred (length l).
Proof. induction l as [|c l IH]; auto. destruct l as [|d l]; auto. change (pdiv a (c :: d :: l)) with (peval (d :: l) a :: pdiv a (d :: l)). cbn [length]. rewrite IH. reflexivity. Qed.
Lemma roots n : forall l (z : nat -> R), (length l <= n)%nat -> (forall i j, (i < n)%nat -> (j < n)%nat -> z i = z j -> i = j) -> (forall i, (i < n)%nat -> peval l (z i) = 0) -> forall x, peval l x = 0.
Proof.
  induction n as [|n IH]; intros l z L D Z x; [destruct l; [reflexivity|cbn in L; lia]|]. assert (E := peval_div (z n) l x). rewrite (Z n) in E by lia. assert (Q : peval (pdiv (z n) l) x = 0).
  { apply (IH _ z); [rewrite len_pdiv; lia|intros; apply D; auto|]. intros i Hi. assert (E' := peval_div (z n) l (z i)). rewrite !Z in E' by lia. assert (P : (z i - z n) * peval (pdiv (z n) l) (z i) = 0) by lra. apply Rmult_integral in P. destruct P as [P|P]; auto. assert (i = n) by (apply D; try lia; lra). lia. }
  rewrite Q in E. lra.
Qed.
(** antiderivative *)
Fixpoint pint (k : nat) (l : list R) : list R := match l with [] => [] | a :: l => a / INR (S k) :: pint (S k) l end.
Fixpoint pdiff (k : nat) (l : list R) : list R := match l with [] => [] | a :: l => INR (S k) * a :: pdiff (S k) l end.
(** derivative of x * l *)
Lemma peval_deriv l : forall x, derivable_pt_lim (fun x => peval l x) x (match l with [] => 0 | _ :: l => peval (pdiff 0 l) x end).
Proof.
  assert (X : forall l k x, derivable_pt_lim (fun x => x ^ S k * peval l x) x (x ^ k * peval (pdiff k l) x)).
  { clear. induction l as [|a l IH]; intros k x.
    - replace (x ^ k * peval (pdiff k []) x) with 0 by (unfold peval; cbn; ring). apply (derivable_pt_lim_ext (fun _ => 0)); [intros; unfold peval; cbn; ring|]. apply derivable_pt_lim_const.
    - cbn [pdiff]. change (peval (INR (S k) * a :: pdiff (S k) l) x) with (INR (S k) * a + x * peval (pdiff (S k) l) x). replace (x ^ k * (INR (S k) * a + x * peval (pdiff (S k) l) x)) with (a * (INR (S k) * x ^ pred (S k)) + x ^ S k * peval (pdiff (S k) l) x) by (cbn [pred pow]; ring).
      apply (derivable_pt_lim_ext (fun x => a * x ^ S k + x ^ S (S k) * peval l x)); [intros y; change (peval (a :: l) y) with (a + y * peval l y); cbn [pow]; ring|].
      apply derivable_pt_lim_plus; [|apply IH]. apply (derivable_pt_lim_scal (fun x => x ^ S k) a). apply derivable_pt_lim_pow. }
  destruct l as [|a l]; intros x; [apply derivable_pt_lim_const|]. apply (derivable_pt_lim_ext (fun x => a + x ^ 1 * peval l x)); [intros y; change (peval (a :: l) y) with (a + y * peval l y); ring|].
  replace (peval (pdiff 0 l) x) with (0 + x ^ 0 * peval (pdiff 0 l) x) by (cbn [pow]; ring). apply derivable_pt_lim_plus; [apply derivable_pt_lim_const|apply X].
Qed.
Lemma pdiff_pint l : forall k, pdiff k (pint k l) = l.
Proof. induction l as [|a l IH]; intros k; cbn [pint pdiff]; auto. f_equal; auto. field. apply not_0_INR. lia. Qed.
Lemma len_pint l : forall k, length (pint k l) = length l. Proof. induction l; intros; cbn; auto. Qed.
Definition anti (l : list R) : list R := 0 :: pint 0 l.
Lemma anti_deriv l x : derivable_pt_lim (fun x => peval (anti l) x) x (peval l x).
Proof. assert (Q := peval_deriv (anti l) x). unfold anti in Q at 2. rewrite pdiff_pint in Q. exact Q. Qed.

(** ** Means over the sub-cells *)
Lemma mean_line N intg n s l : exact N intg -> (0 < n)%nat -> (length l <= S N)%nat ->
  intg (fun p => peval l (lineMap n s p)) = INR n * (peval (anti l) (INR (S (lineCell n s)) / INR n) - peval (anti l) (INR (lineCell n s) / INR n)).
Proof.
  intros E Hn L. assert (NZ : INR n <> 0) by (apply not_0_INR; lia). set (c := INR (lineCell n s)).
  rewrite (E (fun p => INR n * peval (anti l) (c / INR n + / INR n * p))).
  - rewrite S_INR. fold c. replace (c / INR n + / INR n * 1) with ((c + 1) / INR n) by (field; auto). replace (c / INR n + / INR n * 0) with (c / INR n) by ring. ring.
  - exists (map (Rmult (INR n)) (pcomp (c / INR n) (/ INR n) (anti l))). split; [rewrite map_length; assert (Q := len_pcomp (c / INR n) (/ INR n) (anti l)); unfold anti in Q at 2; cbn [length] in Q; rewrite len_pint in Q; lia|]. intros x. rewrite peval_scal, peval_comp. reflexivity.
  - intros x. unfold lineMap. fold c. replace ((c + x) / INR n) with (c / INR n + / INR n * x) by (field; auto). set (y := c / INR n + / INR n * x).
    replace (peval l y) with (INR n * (peval l y * / INR n)) by (field; auto). apply (derivable_pt_lim_scal (fun p => peval (anti l) (c / INR n + / INR n * p)) (INR n)).
    apply (derivable_pt_lim_comp (fun p => c / INR n + / INR n * p) (fun y => peval (anti l) y)); [|apply anti_deriv]. enough (Q : derivable_pt_lim (fun p => c / INR n + / INR n * p) x (0 + / INR n * 1)) by (replace (0 + / INR n * 1) with (/ INR n) in Q by ring; exact Q). apply (derivable_pt_lim_plus (fun _ => c / INR n) (fun p => / INR n * p)); [apply derivable_pt_lim_const|]. apply (derivable_pt_lim_scal (fun p => p) (/ INR n)). apply derivable_pt_lim_id.
Qed.
Lemma lineCell_lt n s : (s < n)%nat -> (lineCell n s < n)%nat.
Proof. intros H. unfold lineCell. destruct (Nat.ltb_spec s (n - 2)); [lia|]. destruct (Nat.eqb_spec s (n - 1)); lia. Qed.
Lemma lineCell_onto n c : (c < n)%nat -> exists s, (s < n)%nat /\ lineCell n s = c.
Proof.
  intros H. unfold lineCell. destruct (Nat.eq_dec c (n - 1)) as [->|A].
  - exists (n - 1)%nat. split; [lia|]. destruct (Nat.ltb_spec (n - 1) (n - 2)); [lia|]. rewrite Nat.eqb_refl. reflexivity.
  - destruct c as [|c].
    + exists (n - 2)%nat. split; [lia|]. rewrite Nat.ltb_irrefl. destruct (Nat.eqb_spec (n - 2) (n - 1)); lia.
    + exists c. split; [lia|]. destruct (Nat.ltb_spec c (n - 2)); lia.
Qed.
Lemma zero_means N intg l : let n := (2 * N + 1)%nat in exact N intg -> (length l <= S N)%nat -> (forall s, (s < n)%nat -> intg (fun p => peval l (lineMap n s p)) = 0) -> forall x, peval l x = 0.
Proof.
  cbv zeta. intros E L H. set (n := (2 * N + 1)%nat) in *. assert (Hn : (0 < n)%nat) by lia. assert (NZ : INR n <> 0) by (apply not_0_INR; lia).
  assert (Z : forall c, (c <= n)%nat -> peval (anti l) (INR c / INR n) = 0).
  { induction c as [|c IH]; intros Hc; [cbn [INR]; unfold Rdiv; rewrite Rmult_0_l; unfold anti, peval; cbn [fold_right]; ring|]. destruct (lineCell_onto n c ltac:(lia)) as (s & Hs & Q). assert (M := mean_line N intg n s l E Hn L). rewrite H in M by auto. rewrite Q, (IH ltac:(lia)) in M. symmetry in M. apply Rmult_integral in M. destruct M as [M|M]; [contradiction|]. lra. }
  assert (A : forall x, peval (anti l) x = 0).
  { apply (roots (S n) (anti l) (fun i => INR i / INR n)).
    - unfold anti. cbn [length]. rewrite len_pint. lia.
    - intros i j Hi Hj Q. apply INR_eq. apply (Rmult_eq_compat_r (INR n)) in Q. unfold Rdiv in Q. rewrite !Rmult_assoc, Rinv_l, !Rmult_1_r in Q by auto. exact Q.
    - intros i Hi. apply Z. lia. }
  intros x. apply (uniqueness_limite (fun x => peval (anti l) x) x); [apply anti_deriv|]. apply (derivable_pt_lim_ext (fun _ => 0)); [intros; rewrite A; reflexivity|apply derivable_pt_lim_const].
Qed.
Lemma isPoly_expand N nb basis c : (forall i, (i < nb)%nat -> isPoly N (basis i)) -> isPoly N (expand nb basis c).
Proof.
  unfold expand. induction nb as [|nb IH]; intros H.
  - exists []. split; [cbn; lia|]. intros. rewrite sum_0. reflexivity.
  - destruct IH as (l & L & E); [intros; apply H; lia|]. destruct (H nb ltac:(lia)) as (m & M & E'). exists (padd l (map (Rmult (c nb)) m)). split; [rewrite len_padd, map_length; lia|]. intros x. rewrite sum_S, E, E', peval_add, peval_scal. reflexivity.
Qed.
