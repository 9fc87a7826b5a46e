(** C99: scatter and gather, the projections between the DG solution and the sub-cells. *)
From Coq Require Import List Arith Bool Reals Lra Lia.
From Verif Require Import ElSpec ElWave ScProj ScProjSpec ScProjV ScProjL ScProjInv.
Import ListNotations.
Open Scope R_scope.

(** The scatter matrix gives the means of the DG solution over the sub-cells. *)
Theorem C99_scatter : forall P (intg : (P -> R) -> R) nb ns basis maps dets c s, linear intg -> intg (fun _ => 1) <> 0 -> (forall s, (s < ns)%nat -> dets s <> 0) -> (s < ns)%nat ->
  times nb c (scatter P intg basis maps dets) s = mean intg (maps s) (expand nb basis c).
Proof.
  intros P intg nb ns basis maps dets c s LI V D Hs. unfold times, mean, expand. rewrite (lin_sum intg nb c (fun i p => basis i (maps s p)) LI). unfold Rdiv. rewrite <- sum_scal_r. apply sum_ext. intros i Hi. rewrite (scatter_eq P intg ns) by auto. unfold refVol, Rdiv. ring.
Qed.
Print Assumptions C99_scatter.

(** ** Lines of degree one: Simpson's rule, three sub-cells, basis functions 1 and 2x-1 *)
Definition simpson (f : R -> R) : R := (f 0 + 4 * f (1 / 2) + f 1) / 6.
Definition basis1 (i : nat) (x : R) : R := match i with O => 1 | _ => 2 * x - 1 end.
Definition third (s : nat) : R := / INR 3.
Lemma simpson_linear : linear simpson. Proof. unfold linear, simpson. repeat split; intros; rewrite ?H; field. Qed.
Lemma simpson_exact : exact 1 simpson.
Proof.
  intros F f (l & L & E) D. assert (D' : forall x, derivable_pt_lim F x (match l with [] => 0 | _ :: l => peval (pdiff 0 l) x end)) by (intros x; apply (derivable_pt_lim_ext (fun x => peval l x)); [intros; rewrite E; reflexivity|apply peval_deriv]).
  assert (Q : forall x, f x = match l with [] => 0 | _ :: l => peval (pdiff 0 l) x end) by (intros x; apply (uniqueness_limite F x); auto). unfold simpson. rewrite !Q, !E. destruct l as [|a [|b [|c [|d l]]]]; try (cbn in L; lia); unfold peval; cbn [pdiff fold_right INR]; field.
Qed.
Example C99_scatter_ex : linear simpson /\ simpson (fun _ => 1) <> 0 /\ (forall s, (s < 3)%nat -> third s <> 0) /\ scatter R simpson basis1 (lineMap 3) third 1 2 = 2 / 3.
Proof.
  split; [exact simpson_linear|]. split; [unfold simpson; lra|]. split; [intros; unfold third; cbn; lra|]. unfold scatter, refVol, subst, third, basis1, lineMap, lineCell, simpson. cbn [Nat.ltb Nat.leb Nat.sub Nat.eqb INR]. field.
Qed.

(** A DG solution, projected to the sub-cells and back, is unchanged. *)
Theorem C99_inverse : forall P (intg : (P -> R) -> R) nb ns basis maps dets inv G c i, linear intg -> intg (fun _ => 1) <> 0 -> (forall s, (s < ns)%nat -> dets s <> 0) -> inverts inv ->
  gather P intg nb ns basis maps dets inv = Some G -> (i < nb)%nat ->
  times ns (fun s => mean intg (maps s) (expand nb basis c)) G i = c i /\ times ns (times nb c (scatter P intg basis maps dets)) G i = c i.
Proof.
  intros P intg nb ns basis maps dets inv G c i LI V D IV E Hi. unfold gather in E. destruct (inv (S nb) _) as [X|] eqn:EX; [|discriminate]. injection E as <-. apply IV in EX. assert (Q := inverse_ok P intg nb ns basis maps dets V D X EX c i Hi).
  split; [|exact Q]. rewrite <- Q. apply sum_ext. intros s Hs. f_equal. symmetry. apply (C99_scatter P intg nb ns); auto.
Qed.
Print Assumptions C99_inverse.
(** an inverse of the matrix of this example *)
Definition aL1 := aL R simpson 2 3 basis1 (lineMap 3) third.
Definition inv1 (i j : nat) : R := nth (3 * i + j) [0; 0; -1; 0; 9 / 16; 0; -1; 0; -6] 0.
Definition invEx (n : nat) (M : nat -> nat -> R) : option (nat -> nat -> R) :=
  if (n =? 3)%nat then (if Req_EM_T (sum 3 (fun i => sum 3 (fun j => (M i j - aL1 i j) * (M i j - aL1 i j)))) 0 then Some inv1 else None) else None.
Lemma aL1_val i j : (i < 3)%nat -> (j < 3)%nat -> aL1 i j = nth (3 * i + j) [6; 0; -1; 0; 16 / 9; 0; -1; 0; 0] 0.
Proof.
  intros Hi Hj. unfold aL1, aL, lsPart, lagrange, refVol, subst, third, basis1, lineMap, lineCell, simpson. cbv [sum seq fold_left].
  destruct i as [|[|[|i]]]; [| | |lia]; (destruct j as [|[|[|j]]]; [| | |lia]); cbn [Nat.ltb Nat.leb Nat.sub Nat.eqb Nat.mul Nat.add nth INR]; field.
Qed.
Lemma invEx_ok : inverts invEx.
Proof.
  intros n M X H. unfold invEx in H. destruct (Nat.eqb_spec n 3) as [->|]; [|discriminate]. destruct (Req_EM_T _ 0) as [Z|]; [|discriminate]. injection H as <-.
  assert (E : forall i j, (i < 3)%nat -> (j < 3)%nat -> M i j = aL1 i j).
  { cbv [sum seq fold_left] in Z. assert (SQ : forall x : R, 0 <= x * x) by (intros; nra). assert (S0 : forall a b : R, (a - b) * (a - b) = 0 -> a = b) by (intros a b Q; apply Rmult_integral in Q; lra).
    assert (A := fun i j => SQ (M i j - aL1 i j)). cbv beta in A. intros i j Hi Hj. apply S0. assert (A00 := A 0%nat 0%nat). assert (A01 := A 0%nat 1%nat). assert (A02 := A 0%nat 2%nat). assert (A10 := A 1%nat 0%nat). assert (A11 := A 1%nat 1%nat). assert (A12 := A 1%nat 2%nat). assert (A20 := A 2%nat 0%nat). assert (A21 := A 2%nat 1%nat). assert (A22 := A 2%nat 2%nat).
    destruct i as [|[|[|i]]]; [| | |lia]; (destruct j as [|[|[|j]]]; [| | |lia]); lra. }
  intros i j Hi Hj. cbv [sum seq fold_left]. rewrite !E by lia. rewrite !aL1_val by lia. unfold inv1. destruct i as [|[|[|i]]]; [| | |lia]; (destruct j as [|[|[|j]]]; [| | |lia]); cbv [nth Nat.mul Nat.add delta Nat.eqb]; split; field.
Qed.
Example C99_inverse_ex : inverts invEx /\ exists G, gather R simpson 2 3 basis1 (lineMap 3) third invEx = Some G.
Proof.
  split; [exact invEx_ok|]. unfold gather, invEx. cbn [Nat.eqb]. destruct (Req_EM_T _ 0) as [Z|Z]; [eexists; reflexivity|]. exfalso. apply Z. unfold aL1. cbv [sum seq fold_left]. ring.
Qed.

(** Gathering conserves: the integral of the DG solution is the volume-weighted sum of the sub-cells. *)
Theorem C99_conservation : forall P (intg : (P -> R) -> R) nb ns basis maps dets inv G u, linear intg -> intg (fun _ => 1) <> 0 -> (forall s, (s < ns)%nat -> dets s <> 0) -> inverts inv ->
  (forall i, (i < nb)%nat -> tiles intg ns maps dets (basis i)) -> gather P intg nb ns basis maps dets inv = Some G ->
  intg (expand nb basis (times ns u G)) = sum ns (fun s => intg (fun _ => 1) * dets s * u s).
Proof.
  intros P intg nb ns basis maps dets inv G u LI V D IV T E. unfold gather in E. destruct (inv (S nb) _) as [X|] eqn:EX; [|discriminate]. injection E as <-. apply IV in EX. transitivity (sum nb (fun j => bI P intg ns basis maps dets j * sol P intg nb ns basis maps dets X u j)); [|exact (sol_last P intg nb ns basis maps dets V D X EX u)]. unfold expand. rewrite (lin_sum intg nb _ basis LI). apply sum_ext. intros i Hi.
  assert (Q := times_G P intg nb ns basis maps dets X u i). unfold ScProjV.G in Q. rewrite Q. rewrite Rmult_comm. f_equal. rewrite (T i Hi). unfold bI. apply sum_ext. intros s Hs. rewrite (scatter_eq P intg ns) by auto. field. auto.
Qed.
Print Assumptions C99_conservation.
Example C99_conservation_ex : forall i, (i < 2)%nat -> tiles simpson 3 (lineMap 3) third (basis1 i).
Proof. intros i Hi. unfold tiles, simpson, lineMap, lineCell, third, basis1. cbv [sum seq fold_left]. cbn [Nat.ltb Nat.leb Nat.sub Nat.eqb INR]. destruct i as [|[|i]]; [| |lia]; field. Qed.

(** Gathering is optimal: no other DG solution with the same integral has means closer to the sub-cells, and one that is as close has the same means. *)
Theorem C99_best : forall P (intg : (P -> R) -> R) nb ns basis maps dets inv G u c, linear intg -> intg (fun _ => 1) <> 0 -> (forall s, (s < ns)%nat -> dets s <> 0) -> inverts inv ->
  (forall i, (i < nb)%nat -> tiles intg ns maps dets (basis i)) -> gather P intg nb ns basis maps dets inv = Some G ->
  intg (expand nb basis c) = sum ns (fun s => intg (fun _ => 1) * dets s * u s) ->
  let dist c := sum ns (fun s => (mean intg (maps s) (expand nb basis c) - u s) * (mean intg (maps s) (expand nb basis c) - u s)) in
  dist (times ns u G) <= dist c /\ (dist c = dist (times ns u G) -> forall i, (i < nb)%nat -> c i = times ns u G i).
Proof.
  intros P intg nb ns basis maps dets inv G u c LI V D IV T E EC. cbv zeta. assert (IN := fun c i => C99_inverse P intg nb ns basis maps dets inv G c i LI V D IV E). unfold gather in E. destruct (inv (S nb) _) as [X|] eqn:EX; [|discriminate]. injection E as <-. apply IV in EX.
  assert (SC : forall c s, (s < ns)%nat -> mean intg (maps s) (expand nb basis c) = times nb c (scatter P intg basis maps dets) s) by (intros; symmetry; apply (C99_scatter P intg nb ns); auto).
  assert (B : sum nb (fun j => bI P intg ns basis maps dets j * c j) = sum ns (fun s => refVol P intg * dets s * u s)).
  { refine (eq_trans _ EC). unfold expand. rewrite (lin_sum intg nb c basis LI). apply sum_ext. intros i Hi. rewrite (Rmult_comm (c i)). f_equal. rewrite (T i Hi). unfold bI. apply sum_ext. intros s Hs. rewrite (scatter_eq P intg ns) by auto. unfold refVol. field. auto. }
  assert (Q := best_ok P intg nb ns basis maps dets V D X EX u c B). set (g := times ns u _) in *.
  assert (TG : forall s, times nb g (scatter P intg basis maps dets) s = times nb (sol P intg nb ns basis maps dets X u) (scatter P intg basis maps dets) s) by (intros s; apply sum_ext; intros i Hi; f_equal; apply (times_G P intg nb ns basis maps dets X u i)).
  rewrite (sum_ext ns (fun s => (mean intg (maps s) (expand nb basis g) - u s) * _) (fun s => (times nb (sol P intg nb ns basis maps dets X u) (scatter P intg basis maps dets) s - u s) * (times nb (sol P intg nb ns basis maps dets X u) (scatter P intg basis maps dets) s - u s))) by (intros s Hs; rewrite SC, TG by auto; reflexivity).
  rewrite (sum_ext ns (fun s => (mean intg (maps s) (expand nb basis c) - u s) * _) (fun s => (times nb c (scatter P intg basis maps dets) s - u s) * (times nb c (scatter P intg basis maps dets) s - u s))) by (intros s Hs; rewrite SC by auto; reflexivity).
  rewrite Q. set (h := fun s => times nb c (scatter P intg basis maps dets) s - times nb (sol P intg nb ns basis maps dets X u) (scatter P intg basis maps dets) s). change (sum ns (fun s => (times nb c (scatter P intg basis maps dets) s - times nb (sol P intg nb ns basis maps dets X u) (scatter P intg basis maps dets) s) * (times nb c (scatter P intg basis maps dets) s - times nb (sol P intg nb ns basis maps dets X u) (scatter P intg basis maps dets) s))) with (sum ns (fun s => h s * h s)).
  split; [assert (0 <= sum ns (fun s => h s * h s)) by (apply sum_nonneg; intros; nra); lra|]. intros EQ i Hi. assert (Z : sum ns (fun s => h s * h s) = 0) by lra.
  assert (H0 : forall s, (s < ns)%nat -> h s = 0).
  { clear - Z. clearbody h. induction ns as [|n IH]; intros s Hs; [lia|]. rewrite sum_S in Z. assert (A : 0 <= sum n (fun s => h s * h s)) by (apply sum_nonneg; intros; nra). assert (B : 0 <= h n * h n) by nra. destruct (Nat.eq_dec s n) as [->|Hn]; [assert (C : h n * h n = 0) by lra; apply Rmult_integral in C; tauto|]. apply IH; [lra|lia]. }
  rewrite <- (proj2 (IN c i Hi)), <- (proj2 (IN g i Hi)). apply sum_ext. intros s Hs. f_equal. rewrite TG. assert (Y := H0 s Hs). unfold h in Y. lra.
Qed.
Print Assumptions C99_best.
Example C99_best_ex : simpson (expand 2 basis1 (fun i => match i with O => 2 | _ => 5 end)) = sum 3 (fun s => simpson (fun _ => 1) * third s * INR (2 * s)).
Proof. unfold simpson, expand, basis1, third. cbv [sum seq fold_left]. cbn [INR Nat.mul Nat.add]. field. Qed.

(** Lines: for every degree, with any independent basis of polynomials which contains the constants, the sub-cells tile the element, the means over the 2N+1 sub-cells determine the solution and gathering is defined. *)
Theorem C99_line : forall N nb intg basis inv, let n := (2 * N + 1)%nat in linear intg -> exact N intg -> complete inv -> (forall i, (i < nb)%nat -> isPoly N (basis i)) ->
  (forall c, (forall x, expand nb basis c x = 0) -> forall i, (i < nb)%nat -> c i = 0) -> (exists c, forall x, expand nb basis c x = 1) ->
  (forall i, (i < nb)%nat -> tiles intg n (lineMap n) (fun _ => / INR n) (basis i)) /\
  (forall c c', (forall s, (s < n)%nat -> mean intg (lineMap n s) (expand nb basis c) = mean intg (lineMap n s) (expand nb basis c')) -> forall i, (i < nb)%nat -> c i = c' i) /\
  exists G, gather R intg nb n basis (lineMap n) (fun _ => / INR n) inv = Some G.
Proof.
  intros N nb intg basis inv. cbv zeta. set (n := (2 * N + 1)%nat). intros LI EX CO PO IND (one & ONE). assert (NZ : INR n <> 0) by (apply not_0_INR; lia).
  assert (V : intg (fun _ => 1) = 1).
  { rewrite (EX (fun x => x)); [ring| |intros; apply derivable_pt_lim_id]. exists [0; 1]. split; [cbn; lia|]. intros. unfold peval. cbn. ring. }
  assert (V0 : intg (fun _ => 1) <> 0) by lra. assert (D0 : forall s, (s < n)%nat -> / INR n <> 0) by (intros; apply Rinv_neq_0_compat; auto).
  assert (Z : forall c, (forall s, (s < n)%nat -> mean intg (lineMap n s) (expand nb basis c) = 0) -> forall i, (i < nb)%nat -> c i = 0).
  { intros c H. apply IND. destruct (isPoly_expand N nb basis c PO) as (l & L & E). intros x. rewrite E. revert x. apply (zero_means N intg l EX L). intros s Hs. specialize (H s Hs). unfold mean in H. rewrite V in H. assert (Q : intg (fun p => expand nb basis c (lineMap n s p)) = 0) by lra. rewrite <- Q. apply LI. intros p. rewrite E. reflexivity. }
  assert (SC := fun c s => C99_scatter R intg nb n basis (lineMap n) (fun _ => / INR n) c s LI V0 D0). split; [intros i Hi; apply (line_tiles N); auto; lia|]. split.
  - intros c c' H i Hi. enough (c i - c' i = 0) by lra. apply (Z (fun i => c i - c' i)); auto. intros s Hs. rewrite <- SC by auto. unfold times. rewrite (sum_ext nb _ (fun i => c i * scatter R intg basis (lineMap n) (fun _ => / INR n) i s - c' i * scatter R intg basis (lineMap n) (fun _ => / INR n) i s)) by (intros; ring).
    rewrite sum_sub. assert (Q := H s Hs). rewrite <- !SC in Q by auto. unfold times in Q. lra.
  - unfold gather. destruct (inv (S nb) _) as [X|] eqn:E; [eexists; reflexivity|]. exfalso. apply CO in E. destruct E as (x & (i & Hi & X0) & K). apply X0. apply (kernel_ok R intg nb n basis (lineMap n) (fun _ => / INR n) x V0 D0); auto.
    + intros c H. apply Z. intros s Hs. rewrite <- SC by auto. auto.
    + set (b := bI R intg n basis (lineMap n) (fun _ => / INR n)). assert (B : sum nb (fun j => b j * one j) = 1).
      { unfold b. rewrite bI_times. rewrite (sum_ext n _ (fun _ => / INR n)).
        - assert (Q : forall m (a : R), sum m (fun _ => a) = INR m * a) by (induction m as [|m IH]; intros a; [rewrite sum_0; cbn; ring|rewrite sum_S, IH, S_INR; ring]). rewrite Q. field. auto.
        - intros s Hs. rewrite SC by auto. unfold mean, refVol. rewrite (proj2 (proj2 LI) (fun p => expand nb basis one (lineMap n s p)) (fun _ => 1)) by (intros; apply ONE). rewrite V. field. auto. }
      clear - B. clearbody b. revert B. assert (Q : forall m, (exists i, (i < m)%nat /\ b i <> 0) \/ sum m (fun j => b j * one j) = 0).
      { induction m as [|m IH]; [right; apply sum_0|]. destruct IH as [(i & Hi & X)|IH]; [left; exists i; split; [lia|auto]|]. destruct (Req_EM_T (b m) 0) as [E|E]; [right; rewrite sum_S, IH, E; ring|left; exists m; auto]. }
      intros B. destruct (Q nb) as [X|X]; auto. lra.
Qed.
Print Assumptions C99_line.
Example C99_line_ex : linear simpson /\ exact 1 simpson /\ (forall i, (i < 2)%nat -> isPoly 1 (basis1 i)) /\ (forall c, (forall x, expand 2 basis1 c x = 0) -> forall i, (i < 2)%nat -> c i = 0) /\ (exists c, forall x, expand 2 basis1 c x = 1) /\
  exists inv, inverts inv /\ complete inv.
Proof.
  split; [exact simpson_linear|]. split; [exact simpson_exact|]. split; [|split; [|split; [|exists gauss; exact gauss_ok]]].
  - intros i Hi. destruct i as [|[|i]]; [exists [1]|exists [-1; 2]|lia]; (split; [cbn; lia|]); intros x; unfold peval; cbn; ring.
  - intros c H i Hi. assert (A := H 0). assert (B := H 1). unfold expand, basis1 in A, B. cbv [sum seq fold_left] in A, B. destruct i as [|[|i]]; [| |lia]; lra.
  - exists (fun i => match i with O => 1 | _ => 0 end). intros x. unfold expand, basis1. cbv [sum seq fold_left]. ring.
Qed.
