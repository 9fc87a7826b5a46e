(** Proofs about the projections between the DG solution and the sub-cells. *)
From Coq Require Import List Arith Bool Reals Lra Lia.
From Verif Require Import ElSpec ElWave ScProj ScProjSpec.
Open Scope R_scope.

Lemma sum_scal_r n c f : sum n (fun i => f i * c) = sum n f * c.
Proof. rewrite Rmult_comm, <- sum_scal. apply sum_ext. intros. ring. Qed.
Lemma sum_neg n f : sum n (fun i => - f i) = - sum n f.
Proof. rewrite (sum_ext n _ (fun i => -1 * f i)) by (intros; ring). rewrite sum_scal. ring. Qed.
Lemma lin_sum {P} (intg : (P -> R) -> R) n (c : nat -> R) (f : nat -> P -> R) : linear intg -> intg (fun p => sum n (fun i => c i * f i p)) = sum n (fun i => c i * intg (f i)).
Proof.
  intros (A & B & E). induction n as [|n IH].
  - rewrite sum_0. rewrite (E _ (fun p => 0 * 0)) by (intros; rewrite sum_0; ring). rewrite B. ring.
  - rewrite sum_S, <- IH, <- B, <- A. apply E. intros p. apply sum_S.
Qed.
(** solutions of a linear system *)
Lemma solve_right n M X r i : isInverse n M X -> (i < n)%nat -> sum n (fun j => M i j * sum n (fun k => X j k * r k)) = r i.
Proof.
  intros H Hi. rewrite (sum_ext n _ (fun j => sum n (fun k => M i j * X j k * r k))) by (intros; rewrite <- sum_scal; apply sum_ext; intros; ring).
  rewrite sum_swap. rewrite (sum_ext n _ (fun k => delta i k * r k)); [apply sum_delta; auto|]. intros k Hk. rewrite sum_scal_r. f_equal. apply H; auto.
Qed.
Lemma solve_left n M X r y : isInverse n M X -> (forall i, (i < n)%nat -> sum n (fun j => M i j * y j) = r i) -> forall i, (i < n)%nat -> sum n (fun k => X i k * r k) = y i.
Proof.
  intros H E i Hi. rewrite (sum_ext n _ (fun k => sum n (fun j => X i k * M k j * y j))) by (intros k Hk; rewrite <- E by auto; rewrite <- sum_scal; apply sum_ext; intros; ring).
  rewrite sum_swap. rewrite (sum_ext n _ (fun j => delta i j * y j)); [apply sum_delta; auto|]. intros j Hj. rewrite sum_scal_r. f_equal. apply H; auto.
Qed.

Section Proj.
Variables (P : Type) (intg : (P -> R) -> R) (nb ns : nat) (basis : nat -> P -> R) (maps : nat -> P -> P) (dets : nat -> R).
Local Notation S_ := (scatter P intg basis maps dets).
Local Notation aL_ := (aL P intg nb ns basis maps dets).
Local Notation aR_ := (aR P intg nb basis maps dets).
Local Notation vol := (refVol P intg).
Hypothesis HV : vol <> 0.
Hypothesis HD : forall s, (s < ns)%nat -> dets s <> 0.

(** integral of a basis function over the sub-cells *)
Definition bI (i : nat) : R := sum ns (fun s => vol * dets s * S_ i s).
Lemma scatter_eq i s : (s < ns)%nat -> S_ i s = intg (fun p => basis i (maps s p)) / vol.
Proof using HV HD. intros H. unfold scatter, subst. field. split; auto. Qed.
Lemma lagrange_eq i : lagrange P intg ns basis maps dets i = - bI i.
Proof using HV HD. unfold lagrange, bI. rewrite <- sum_neg. apply sum_ext. intros s H. rewrite scatter_eq by auto. unfold subst. field. auto. Qed.
Lemma ls_eq i j s : (s < ns)%nat -> lsPart P intg basis maps dets i j s = 2 * (S_ i s * S_ j s).
Proof using HV HD. intros H. rewrite !scatter_eq by auto. unfold lsPart, subst. field. split; auto. Qed.
(** rows of the system *)
Lemma row_ls x i : (i < nb)%nat -> sum (S nb) (fun j => aL_ i j * x j) = 2 * sum ns (fun s => S_ i s * times nb x S_ s) - bI i * x nb.
Proof using HV HD.
  intros Hi. assert (I : (i <? nb)%nat = true) by (apply Nat.ltb_lt; auto). rewrite sum_S. unfold aL at 2. rewrite I, Nat.ltb_irrefl, lagrange_eq. unfold Rminus. rewrite Ropp_mult_distr_l. f_equal.
  rewrite (sum_ext nb _ (fun j => sum ns (fun s => 2 * (S_ i s * (x j * S_ j s))))).
  - rewrite sum_swap, <- sum_scal. apply sum_ext. intros s Hs. unfold times. rewrite <- !sum_scal. apply sum_ext. intros. ring.
  - intros j Hj. unfold aL. assert (J : (j <? nb)%nat = true) by (apply Nat.ltb_lt; auto). rewrite I, J. rewrite <- sum_scal_r. apply sum_ext. intros s Hs. rewrite ls_eq by auto. ring.
Qed.
Lemma row_last x : sum (S nb) (fun j => aL_ nb j * x j) = - sum nb (fun j => bI j * x j).
Proof using HV HD.
  rewrite sum_S. unfold aL at 2. rewrite Nat.ltb_irrefl, Rmult_0_l, Rplus_0_r. rewrite <- sum_neg. apply sum_ext. intros j Hj. unfold aL. assert (J : (j <? nb)%nat = true) by (apply Nat.ltb_lt; auto). rewrite Nat.ltb_irrefl, J, lagrange_eq. ring.
Qed.
(** right-hand side *)
Definition rhs (u : nat -> R) (k : nat) : R := sum ns (fun s => u s * aR_ k s).
Lemma rhs_ls u i : (i < nb)%nat -> rhs u i = 2 * sum ns (fun s => S_ i s * u s).
Proof using. intros Hi. unfold rhs, aR. assert (I : (i <? nb)%nat = true) by (apply Nat.ltb_lt; auto). rewrite I, <- sum_scal. apply sum_ext. intros. ring. Qed.
Lemma rhs_last u : rhs u nb = - sum ns (fun s => vol * dets s * u s).
Proof using. unfold rhs, aR. rewrite Nat.ltb_irrefl. rewrite <- sum_neg. apply sum_ext. intros. ring. Qed.
Lemma bI_times x : sum nb (fun j => bI j * x j) = sum ns (fun s => vol * dets s * times nb x S_ s).
Proof using.
  unfold bI. rewrite (sum_ext nb _ (fun j => sum ns (fun s => vol * dets s * (x j * S_ j s)))) by (intros; rewrite <- sum_scal_r; apply sum_ext; intros; ring). rewrite sum_swap. apply sum_ext. intros. unfold times. rewrite <- sum_scal. reflexivity.
Qed.
Variable X : nat -> nat -> R.
Hypothesis HX : isInverse (S nb) aL_ X.
Definition G (s i : nat) : R := sum (S nb) (fun k => X i k * aR_ k s).
Definition sol (u : nat -> R) (i : nat) : R := sum (S nb) (fun k => X i k * rhs u k).
Lemma times_G u i : times ns u G i = sol u i.
Proof using.
  unfold times, G, sol, rhs. rewrite (sum_ext ns _ (fun s => sum (S nb) (fun k => X i k * (u s * aR_ k s)))) by (intros; rewrite <- sum_scal; apply sum_ext; intros; ring). rewrite sum_swap. apply sum_ext. intros. rewrite sum_scal. reflexivity.
Qed.
Lemma sol_ls u i : (i < nb)%nat -> 2 * sum ns (fun s => S_ i s * times nb (sol u) S_ s) - bI i * sol u nb = 2 * sum ns (fun s => S_ i s * u s).
Proof using HV HD HX. intros Hi. rewrite <- row_ls, <- rhs_ls by auto. apply (solve_right (S nb) aL_ X (rhs u)); auto. Qed.
Lemma sol_last u : sum nb (fun j => bI j * sol u j) = sum ns (fun s => vol * dets s * u s).
Proof using HV HD HX. enough (Q : - sum nb (fun j => bI j * sol u j) = - sum ns (fun s => vol * dets s * u s)) by lra. rewrite <- row_last, <- rhs_last. apply (solve_right (S nb) aL_ X (rhs u)); auto. Qed.
Lemma inverse_ok c i : (i < nb)%nat -> times ns (times nb c S_) G i = c i.
Proof using HV HD HX.
  intros Hi. rewrite times_G. unfold sol. set (y := fun j => if (j <? nb)%nat then c j else 0). assert (Y : forall s, times nb y S_ s = times nb c S_ s) by (intros s; apply sum_ext; intros j Hj; unfold y; apply Nat.ltb_lt in Hj; rewrite Hj; reflexivity).
  replace (c i) with (y i) by (unfold y; apply Nat.ltb_lt in Hi; rewrite Hi; reflexivity). apply (solve_left (S nb) aL_ X); auto. intros k Hk. destruct (Nat.eq_dec k nb) as [->|Hn].
  - rewrite row_last, rhs_last, bI_times. f_equal. apply sum_ext. intros. rewrite Y. reflexivity.
  - rewrite row_ls, rhs_ls by lia. unfold y at 2. rewrite Nat.ltb_irrefl, Rmult_0_r, Rminus_0_r. f_equal. apply sum_ext. intros. rewrite Y. reflexivity.
Qed.
Lemma best_ok u c : sum nb (fun j => bI j * c j) = sum ns (fun s => vol * dets s * u s) ->
  sum ns (fun s => (times nb c S_ s - u s) * (times nb c S_ s - u s)) = sum ns (fun s => (times nb (sol u) S_ s - u s) * (times nb (sol u) S_ s - u s)) + sum ns (fun s => (times nb c S_ s - times nb (sol u) S_ s) * (times nb c S_ s - times nb (sol u) S_ s)).
Proof using HV HD HX.
  intros E. set (x := sol u). set (d := fun j => c j - x j). assert (SD : forall s, times nb d S_ s = times nb c S_ s - times nb x S_ s) by (intros; unfold times, d; rewrite <- sum_sub; apply sum_ext; intros; ring).
  assert (O : sum ns (fun s => (times nb x S_ s - u s) * times nb d S_ s) = 0).
  { rewrite (sum_ext ns _ (fun s => sum nb (fun i => d i * (S_ i s * times nb x S_ s - S_ i s * u s)))) by (intros; unfold times at 2; rewrite <- sum_scal; apply sum_ext; intros; ring).
    rewrite sum_swap. rewrite (sum_ext nb _ (fun i => x nb / 2 * (bI i * c i - bI i * x i))).
    - rewrite sum_scal, sum_sub, E. unfold x. rewrite sol_last. ring.
    - intros i Hi. rewrite sum_scal, sum_sub. assert (Q := sol_ls u i Hi). fold x in Q. unfold d. replace (sum ns (fun s => S_ i s * times nb x S_ s) - sum ns (fun s => S_ i s * u s)) with (bI i * x nb / 2) by lra. field. }
  rewrite <- sum_add. rewrite <- (Rplus_0_r (sum ns (fun i => _ + _))). rewrite <- (Rmult_0_r 2), <- O, <- sum_scal, <- sum_add. apply sum_ext. intros s Hs. cbv beta. rewrite SD. ring.
Qed.
End Proj.

(** the system is regular *)
Lemma kernel_ok P (intg : (P -> R) -> R) nb ns basis maps dets x : refVol P intg <> 0 -> (forall s, (s < ns)%nat -> dets s <> 0) ->
  (forall c, (forall s, (s < ns)%nat -> times nb c (scatter P intg basis maps dets) s = 0) -> forall i, (i < nb)%nat -> c i = 0) -> (exists i, (i < nb)%nat /\ bI P intg ns basis maps dets i <> 0) ->
  (forall i, (i < S nb)%nat -> sum (S nb) (fun j => aL P intg nb ns basis maps dets i j * x j) = 0) -> forall i, (i < S nb)%nat -> x i = 0.
Proof.
  intros HV HD INJ (i0 & Hi0 & B0) K. set (S_ := scatter P intg basis maps dets) in *. set (b := bI P intg ns basis maps dets) in *.
  assert (R1 : forall i, (i < nb)%nat -> 2 * sum ns (fun s => S_ i s * times nb x S_ s) = b i * x nb) by (intros i Hi; assert (Q := K i ltac:(lia)); rewrite row_ls in Q by auto; fold S_ in Q; fold b in Q; lra).
  assert (R2 : sum nb (fun j => b j * x j) = 0) by (assert (Q := K nb ltac:(lia)); rewrite row_last in Q by auto; fold b in Q; lra).
  assert (Z : sum ns (fun s => times nb x S_ s * times nb x S_ s) = 0).
  { rewrite (sum_ext ns _ (fun s => sum nb (fun i => x i * (S_ i s * times nb x S_ s)))) by (intros; unfold times at 1; rewrite <- sum_scal_r; apply sum_ext; intros; ring). rewrite sum_swap.
    rewrite (sum_ext nb _ (fun i => x nb / 2 * (b i * x i))); [rewrite sum_scal, R2; ring|]. intros i Hi. rewrite sum_scal. replace (sum ns (fun s => S_ i s * times nb x S_ s)) with (b i * x nb / 2) by (rewrite <- R1 by auto; field). field. }
  assert (Z' : forall s, (s < ns)%nat -> times nb x S_ s = 0).
  { clear - Z. induction ns as [|n IH]; intros s Hs; [lia|]. rewrite sum_S in Z. assert (A : 0 <= sum n (fun s => times nb x S_ s * times nb x S_ s)) by (apply sum_nonneg; intros; nra). assert (B : 0 <= times nb x S_ n * times nb x S_ n) by nra.
    destruct (Nat.eq_dec s n) as [->|Hn]; [assert (C : times nb x S_ n * times nb x S_ n = 0) by lra; apply Rmult_integral in C; tauto|]. apply IH; [lra|lia]. }
  assert (X0 := INJ x Z'). intros i Hi. destruct (Nat.eq_dec i nb) as [->|Hn]; [|apply X0; lia]. assert (Q := R1 i0 Hi0). rewrite (sum_zero ns) in Q by (intros; rewrite Z' by auto; ring). assert (Q' : b i0 * x nb = 0) by lra. apply Rmult_integral in Q'. tauto.
Qed.
