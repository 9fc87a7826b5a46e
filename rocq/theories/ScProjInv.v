(** Projections between the DG solution and the sub-cells: there is a function that inverts every regular matrix, so the contracts assumed of sympy can be met. *)
From Coq Require Import List Arith Bool Reals Lra Lia.
From Verif Require Import ElSpec ElWave ScProj ScProjSpec ScProjV ScProjL.
Open Scope R_scope.

Definition sk (p j : nat) : nat := if (j <? p)%nat then j else S j.
Lemma sum_skip p f : forall n, (p <= n)%nat -> sum (S n) f = f p + sum n (fun j => f (sk p j)).
Proof.
  induction n as [|n IH]; intros H.
  - replace p with 0%nat by lia. rewrite sum_S, !sum_0. ring.
  - destruct (Nat.eq_dec p (S n)) as [->|A].
    + rewrite sum_S, Rplus_comm. f_equal. apply sum_ext. intros i Hi. unfold sk. destruct (Nat.ltb_spec i (S n)); [reflexivity|lia].
    + rewrite sum_S, (IH ltac:(lia)), (sum_S n). unfold sk at 3. destruct (Nat.ltb_spec n p); [lia|]. ring.
Qed.
Lemma pivot n (f : nat -> R) : {p | (p < n)%nat /\ f p <> 0} + {forall j, (j < n)%nat -> f j = 0}.
Proof.
  induction n as [|n IH]; [right; intros; lia|]. destruct IH as [(p & Hp & E)|IH]; [left; exists p; split; [lia|exact E]|].
  destruct (Req_EM_T (f n) 0) as [E|E]; [right|left; exists n; auto]. intros j Hj. destruct (Nat.eq_dec j n) as [->|]; auto. apply IH. lia.
Qed.
(** fewer equations than unknowns *)
Lemma wide m : forall n (M : nat -> nat -> R), (m < n)%nat -> {x | (exists i, (i < n)%nat /\ x i <> 0) /\ forall i, (i < m)%nat -> sum n (fun j => M i j * x j) = 0}.
Proof.
  induction m as [|m IH]; intros n M H.
  - exists (fun _ => 1). split; [exists 0%nat; split; [lia|lra]|intros; lia].
  - destruct (pivot n (M m)) as [(p & Hp & E)|E].
    + destruct n as [|n]; [exfalso; lia|]. destruct (IH n (fun i j => M i (sk p j) - M i p / M m p * M m (sk p j)) ltac:(lia)) as (y & NZ & Q).
      set (T := sum n (fun j => M m (sk p j) * y j)). set (x := fun j => if (j <? p)%nat then y j else if (j =? p)%nat then - T / M m p else y (j - 1)%nat).
      assert (Xs : forall j, x (sk p j) = y j).
      { intros j. unfold x, sk. destruct (Nat.ltb_spec j p) as [A|A]; [destruct (Nat.ltb_spec j p); [reflexivity|lia]|]. destruct (Nat.ltb_spec (S j) p); [lia|]. destruct (Nat.eqb_spec (S j) p); [lia|]. f_equal. lia. }
      assert (Xp : x p = - T / M m p) by (unfold x; rewrite Nat.ltb_irrefl, Nat.eqb_refl; reflexivity).
      assert (S1 : forall i, sum (S n) (fun j => M i j * x j) = M i p * (- T / M m p) + sum n (fun j => M i (sk p j) * y j)) by (intros i; rewrite (sum_skip p) by lia; rewrite Xp; f_equal; apply sum_ext; intros; rewrite Xs; reflexivity).
      exists x. split.
      * destruct NZ as (i & Hi & Z). exists (sk p i). rewrite Xs. split; auto. unfold sk. destruct (i <? p)%nat; lia.
      * intros i Hi. rewrite S1. destruct (Nat.eq_dec i m) as [->|A]; [fold T; field; exact E|]. assert (B := Q i ltac:(lia)). cbv beta in B.
        rewrite (sum_ext n _ (fun j => M i (sk p j) * y j - M i p / M m p * (M m (sk p j) * y j))) in B by (intros; ring). rewrite sum_sub, sum_scal in B. fold T in B. replace (M i p * (- T / M m p)) with (- (M i p / M m p * T)) by (field; exact E). lra.
    + destruct (IH n M ltac:(lia)) as (x & NZ & Q). exists x. split; auto. intros i Hi. destruct (Nat.eq_dec i m) as [->|A]; [|apply Q; lia]. apply sum_zero. intros j Hj. rewrite E by auto. ring.
Qed.
Definition kernel (n : nat) (M : nat -> nat -> R) (x : nat -> R) : Prop := (exists i, (i < n)%nat /\ x i <> 0) /\ forall i, (i < n)%nat -> sum n (fun j => M i j * x j) = 0.
Lemma solve_col n M k : (Datatypes.sum {x | forall i, (i < n)%nat -> sum n (fun j => M i j * x j) = delta i k} {x | kernel n M x}).
Proof.
  destruct (wide n (S n) (fun i j => if (j <? n)%nat then M i j else - delta i k) ltac:(lia)) as (x & NZ & Q).
  assert (R1 : forall i, (i < n)%nat -> sum n (fun j => M i j * x j) = delta i k * x n).
  { intros i Hi. assert (B := Q i Hi). rewrite sum_S, Nat.ltb_irrefl in B. rewrite (sum_ext n _ (fun j => M i j * x j)) in B by (intros j Hj; destruct (Nat.ltb_spec j n); [reflexivity|lia]). lra. }
  destruct (Req_EM_T (x n) 0) as [Z|Z].
  - right. exists x. split; [|intros; rewrite R1, Z by auto; ring]. destruct NZ as (i & Hi & X). exists i. split; auto. destruct (Nat.eq_dec i n) as [->|]; [contradiction|lia].
  - left. exists (fun j => x j * / x n). intros i Hi. rewrite (sum_ext n _ (fun j => M i j * x j * / x n)) by (intros; ring). rewrite sum_scal_r, R1 by auto. field. exact Z.
Qed.
Lemma right_inverse n M : (Datatypes.sum {X | forall i k, (i < n)%nat -> (k < n)%nat -> sum n (fun j => M i j * X j k) = delta i k} {x | kernel n M x}).
Proof.
  enough (Q : forall m, (Datatypes.sum {X | forall i k, (i < n)%nat -> (k < m)%nat -> sum n (fun j => M i j * X j k) = delta i k} {x | kernel n M x})) by exact (Q n).
  induction m as [|m [(X & E)|K]]; [left; exists (fun _ _ => 0); intros; lia| |right; exact K].
  destruct (solve_col n M m) as [(x & Ex)|K]; [left|right; exact K]. exists (fun j k => if (k =? m)%nat then x j else X j k). intros i k Hi Hk. destruct (Nat.eqb_spec k m) as [->|A]; [apply Ex; auto|apply E; lia].
Qed.
Lemma delta_sym i j : delta i j = delta j i. Proof. unfold delta. rewrite Nat.eqb_sym. reflexivity. Qed.
Lemma inverse_or_kernel n M : (Datatypes.sum {X | isInverse n M X} {x | kernel n M x}).
Proof.
  destruct (right_inverse n M) as [(X & E)|K]; [left|right; exact K]. exists X. destruct (right_inverse n X) as [(Y & F)|(x & (i & Hi & NZ) & K)].
  - (* M = M X Y = Y *)
    assert (MY : forall i k, (i < n)%nat -> (k < n)%nat -> M i k = Y i k).
    { intros i k Hi Hk. transitivity (sum n (fun j => M i j * sum n (fun l => X j l * Y l k))).
      - rewrite (sum_ext n _ (fun j => delta k j * M i j)) by (intros j Hj; rewrite F, (delta_sym j) by auto; ring). symmetry. apply (sum_delta n k (fun j => M i j)). exact Hk.
      - rewrite (sum_ext n _ (fun j => sum n (fun l => M i j * X j l * Y l k))) by (intros; rewrite <- sum_scal; apply sum_ext; intros; ring). rewrite sum_swap.
        rewrite (sum_ext n _ (fun l => delta i l * Y l k)) by (intros l Hl; rewrite sum_scal_r, E by auto; reflexivity). apply (sum_delta n i (fun l => Y l k)). exact Hi. }
    intros i j Hi Hj. split; [|apply E; auto]. rewrite <- (F i j Hi Hj). apply sum_ext. intros k Hk. rewrite MY by auto. reflexivity.
  - exfalso. apply NZ. transitivity (sum n (fun j => M i j * sum n (fun l => X j l * x l))); [|apply sum_zero; intros j Hj; rewrite K by auto; ring]. symmetry.
    rewrite (sum_ext n _ (fun j => sum n (fun l => M i j * X j l * x l))) by (intros; rewrite <- sum_scal; apply sum_ext; intros; ring). rewrite sum_swap.
    rewrite (sum_ext n _ (fun l => delta i l * x l)) by (intros l Hl; rewrite sum_scal_r, E by auto; reflexivity). apply sum_delta. exact Hi.
Qed.
Definition gauss (n : nat) (M : nat -> nat -> R) : option (nat -> nat -> R) := match inverse_or_kernel n M with inl (exist _ X _) => Some X | inr _ => None end.
Lemma gauss_ok : inverts gauss /\ complete gauss.
Proof.
  split; unfold gauss; intros n M.
  - intros X H. destruct (inverse_or_kernel n M) as [(Y & I)|K]; [|discriminate]. injection H as <-. exact I.
  - intros H. destruct (inverse_or_kernel n M) as [(Y & I)|(x & K)]; [discriminate|]. exists x. exact K.
Qed.

(** ** The sub-cells of a line tile it *)
Lemma sum_lineCell n f : (n <> 2)%nat -> sum n (fun s => f (lineCell n s)) = sum n f.
Proof.
  intros N2. destruct n as [|[|k]]; [reflexivity|rewrite !sum_S, !sum_0; reflexivity|]. rewrite (sum_S (S k)), (sum_S k), (sum_S (S k) f), (sum_skip 0 f k) by lia.
  replace (lineCell (S (S k)) k) with 0%nat by (unfold lineCell; destruct (Nat.ltb_spec k (S (S k) - 2)); [lia|]; destruct (Nat.eqb_spec k (S (S k) - 1)); [lia|reflexivity]).
  replace (lineCell (S (S k)) (S k)) with (S k) by (unfold lineCell; destruct (Nat.ltb_spec (S k) (S (S k) - 2)); [lia|]; destruct (Nat.eqb_spec (S k) (S (S k) - 1)); lia).
  rewrite (sum_ext k _ (fun j => f (sk 0 j))); [ring|]. intros s Hs. f_equal. unfold lineCell, sk. destruct (Nat.ltb_spec s (S (S k) - 2)); [reflexivity|lia].
Qed.
Lemma sum_tele n (f : nat -> R) : sum n (fun i => f (S i) - f i) = f n - f 0%nat.
Proof. induction n as [|n IH]; [rewrite sum_0; ring|rewrite sum_S, IH; ring]. Qed.
Lemma line_tiles N intg n f : linear intg -> exact N intg -> (0 < n)%nat -> (n <> 2)%nat -> isPoly N f -> tiles intg n (lineMap n) (fun _ => / INR n) f.
Proof.
  intros LI E Hn N2 (l & L & F). assert (NZ : INR n <> 0) by (apply not_0_INR; lia). unfold tiles.
  rewrite (sum_ext n _ (fun s => peval (anti l) (INR (S (lineCell n s)) / INR n) - peval (anti l) (INR (lineCell n s) / INR n))).
  - rewrite (sum_lineCell n (fun c => peval (anti l) (INR (S c) / INR n) - peval (anti l) (INR c / INR n))) by auto. rewrite (sum_tele n (fun c => peval (anti l) (INR c / INR n))). cbn [INR]. unfold Rdiv. rewrite Rmult_0_l, Rinv_r by auto.
    rewrite (proj2 (proj2 LI) f (fun x => peval l x)) by auto. apply (E (fun x => peval (anti l) x)); [|intros; apply anti_deriv]. exists (anti l). split; [unfold anti; cbn [length]; rewrite len_pint; lia|reflexivity].
  - intros s Hs. rewrite (proj2 (proj2 LI) _ (fun p => peval l (lineMap n s p))) by (intros; apply F). rewrite (mean_line N) by auto. field. auto.
Qed.
