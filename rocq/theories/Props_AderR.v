(** The time prediction of the ADER-DG solver over the real numbers: property C75, as a solution of the element's system. *)
From Coq Require Import Reals Lra Factorial.
From Verif Require Import Util MeshConn MatMul Props_Mat Ader AderSpec AderV AderCk AderInt Props_Ader.

(** the operator of the element is linear *)
Section Lin.
Context {T : Type}.
Variables (A : alg T) (cf : conf).
Local Notation zero := (aZero A).
Local Notation add := (aAdd A).
Local Notation mul := (aMul A).
Add Ring TR5 : (aRT A).
Local Notation nDi := (nDis (cEl cf)).
Local Notation nMd := (nModes (cEl cf) (cSp cf)).
Local Notation ck_ := (nModesCk (cEl cf) (cSp cf)).
Local Notation nE := (nQtsE (cEl cf)).
Local Notation nM := (nQtsM (cEl cf)).
Local Notation nRm := (cRms cf).
Local Opaque nModes nModesCk nQtsE nQtsM nDis.

Lemma sum_mul_r n c f : sum A n (fun i => mul (f i) c) = mul (sum A n f) c.
Proof. induction n as [|n IH]; cbn [AderSpec.sum]; [ring|]. rewrite IH. ring. Qed.

Lemma op_comb K starE starA srcA rfs n c (f : nat -> @state T) x y : nRm = 0 ->
  fst (opOf A cf add K starE starA srcA rfs (comb A n c f)) x y = sum A n (fun d => mul (c d) (fst (opOf A cf add K starE starA srcA rfs (f d)) x y)).
Proof.
  intros R. unfold opOf, powOf. cbn [pow op fst]. unfold opE. rewrite R. cbn [AderSpec.sum].
  set (g := fun s : @state T => sum A nDi (fun di => sum A nE (fun j => mul (ent A nE (nth di starE []) x j) (grad A cf K di (fst s) j y)))).
  change (add (g (comb A n c f)) (if x <? nM then zero else zero) = sum A n (fun d => mul (c d) (add (g (f d)) (if x <? nM then zero else zero)))).
  replace (if x <? nM then zero else zero) with zero by (destruct (x <? nM); reflexivity).
  rewrite (sum_ext A n _ (fun d => mul (c d) (g (f d)))) by (intros; ring).
  replace (add (g (comb A n c f)) zero) with (g (comb A n c f)) by ring. unfold g.
  rewrite (sum_ext A n _ (fun d => sum A nDi (fun di => mul (c d) (sum A nE (fun j => mul (ent A nE (nth di starE []) x j) (grad A cf K di (fst (f d)) j y)))))) by (intros; symmetry; apply sum_mul).
  rewrite (sum_swap A n nDi). apply sum_ext. intros di _.
  rewrite (sum_ext A n _ (fun d => sum A nE (fun j => mul (c d) (mul (ent A nE (nth di starE []) x j) (grad A cf K di (fst (f d)) j y))))) by (intros; symmetry; apply sum_mul).
  rewrite (sum_swap A n nE). apply sum_ext. intros j _.
  assert (G : grad A cf K di (fst (comb A n c f)) j y = sum A n (fun d => mul (c d) (grad A cf K di (fst (f d)) j y))).
  { unfold grad. cbn [comb fst].
    rewrite (sum_ext A n _ (fun d => sum A nMd (fun l => mul (c d) (mul (fst (f d) j l) (K di l y))))) by (intros; symmetry; apply sum_mul).
    rewrite (sum_swap A n nMd). apply sum_ext. intros l _. rewrite <- sum_mul_r. apply sum_ext. intros d _. ring. }
  rewrite G. rewrite <- sum_mul. apply sum_ext. intros. ring.
Qed.

(** the derivative lowers the degree, down to the constants *)
Definition lowersAll (K : nat -> nat -> nat -> T) : Prop :=
  forall de di l y, 1 <= de <= cSp cf -> di < nDi -> l < ck_ (de - 1) -> ck_ de <= y < nMd -> K di l y = zero.

Lemma pow_zero K starE starA srcA rfs s d x y : nRm = 0 -> lowersAll K -> d <= cSp cf -> ck_ d <= y < nMd -> fst (powOf A cf add K starE starA srcA rfs d s) x y = zero.
Proof.
  intros R Low. revert x y. induction d as [|d IH]; intros x y Hd Hy; [rewrite ck_0 in Hy; lia|].
  unfold powOf in *. cbn [pow op fst]. unfold opE. rewrite R. cbn [AderSpec.sum].
  set (w := pow A cf add K _ _ _ _ d s) in *.
  assert (E : sum A nDi (fun di => sum A nE (fun j => mul (ent A nE (nth di starE []) x j) (grad A cf K di (fst w) j y))) = zero).
  { apply sum_0. intros di Hdi. apply sum_0. intros j Hj. replace (grad A cf K di (fst w) j y) with zero; [ring|]. symmetry. apply sum_0. intros l Hl.
    destruct (Nat.lt_ge_cases l (ck_ d)) as [C|C].
    - rewrite (Low (S d) di l y) by (replace (S d - 1) with d by lia; auto; lia). ring.
    - rewrite IH by lia. ring. }
  rewrite E. destruct (x <? nM); ring.
Qed.
End Lin.

Local Open Scope R_scope.

Definition algR : alg R.
Proof.
  refine {| aZero := 0; aOne := 1; aAdd := Rplus; aSub := Rminus; aMul := Rmult; aDiv := Rdiv; aOpp := Ropp; aOfN := INR; aIsz := fun x => if Req_EM_T 0 x then true else false |}.
  - exact RTheory.
  - destruct (Req_EM_T 0 0); [reflexivity|lra].
  - destruct (Req_EM_T 0 1); [lra|reflexivity].
Defined.

Lemma INR_fact_pos n : INR (fact n) <> 0.
Proof. apply INR_fact_neq_0. Qed.

Lemma escal_R t d : escal algR t d = t ^ d / INR (fact d).
Proof.
  induction d as [|d IH]; [cbn; lra|]. change (escal algR t (S d)) with (escal algR t d * (t / INR (S d))). rewrite IH. rewrite fact_simpl, mult_INR. cbn [Rpow_def.pow].
  field. split; [apply INR_fact_pos|apply not_0_INR; lia].
Qed.
Lemma scal_R t d : scal algR t d = t ^ (S d) / INR (fact (S d)).
Proof.
  induction d as [|d IH]; [cbn; lra|]. change (scal algR t (S d)) with (scal algR t d * (t / INR (S d + 1))). rewrite IH. replace (S d + 1)%nat with (S (S d)) by lia.
  rewrite (fact_simpl (S d)), mult_INR. cbn [Rpow_def.pow]. field. split; [apply INR_fact_pos|apply not_0_INR; lia].
Qed.

Lemma D_power c n t : derivable_pt_lim (fun t => t ^ (S n) / INR (fact (S n)) * c) t (t ^ n / INR (fact n) * c).
Proof.
  replace (t ^ n / INR (fact n) * c) with (c / INR (fact (S n)) * (INR (S n) * t ^ n)).
  2:{ rewrite fact_simpl, mult_INR. field. split; [apply INR_fact_pos|apply not_0_INR; lia]. }
  apply (derivable_pt_lim_ext (mult_real_fct (c / INR (fact (S n))) (fun t => t ^ (S n)))).
  - intros x. unfold mult_real_fct. field. apply INR_fact_pos.
  - apply derivable_pt_lim_scal. apply (derivable_pt_lim_pow t (S n)).
Qed.

Lemma D_sum n (f : nat -> R -> R) g t : (forall i, (i < n)%nat -> derivable_pt_lim (f i) t (g i)) ->
  derivable_pt_lim (fun t => sum algR n (fun i => f i t)) t (sum algR n g).
Proof.
  induction n as [|n IH]; intros H; cbn [AderSpec.sum].
  - apply derivable_pt_lim_const.
  - apply (derivable_pt_lim_plus (fun t => sum algR n (fun i => f i t)) (f n)); [apply IH; intros; apply H; lia|apply H; lia].
Qed.

Lemma sum_first n f : sum algR (S n) f = f 0%nat + sum algR n (fun d => f (S d)).
Proof. induction n as [|n IH]; [cbn; lra|]. cbn [AderSpec.sum] in *. rewrite IH. cbn. lra. Qed.

Section Ode.
Variables (cf : conf) (K : nat -> nat -> nat -> R) (starE starA srcA : list (list R)) (rfs : list R) (s : @state R).
Hypothesis R0 : cRms cf = 0%nat.
Hypothesis HT : (1 <= cTi cf)%nat.
Let L (d : nat) : @state R := powOf algR cf Rplus K starE starA srcA rfs d s.
Definition taylor (t : R) : @state R := comb algR (cTi cf) (escal algR t) L.
Definition taylorInt (t : R) : @state R := comb algR (cTi cf) (scal algR t) L.

Lemma taylor_0 x y : fst (taylor 0) x y = fst s x y.
Proof.
  unfold taylor. cbn [comb fst]. destruct (cTi cf) as [|n]; [lia|]. rewrite sum_first.
  rewrite (sum_0 algR n); [cbn; lra|]. intros d Hd. rewrite escal_R. rewrite pow_i by lia. cbn. unfold Rdiv. lra.
Qed.
Lemma taylorInt_0 x y : fst (taylorInt 0) x y = 0.
Proof. unfold taylorInt. cbn [comb fst]. apply (sum_0 algR). intros d Hd. rewrite scal_R. rewrite pow_i by lia. cbn. unfold Rdiv. lra. Qed.

Lemma taylorInt_D x y t : derivable_pt_lim (fun t => fst (taylorInt t) x y) t (fst (taylor t) x y).
Proof.
  unfold taylorInt, taylor. cbn [comb fst]. apply (D_sum (cTi cf) (fun d t => aMul algR (scal algR t d) (fst (L d) x y))). intros d Hd.
  rewrite escal_R. apply (derivable_pt_lim_ext (fun t => t ^ (S d) / INR (fact (S d)) * fst (L d) x y)); [intros u; now rewrite scal_R|]. apply D_power.
Qed.

Lemma taylor_D x y t : derivable_pt_lim (fun t => fst (taylor t) x y) t
  (fst (opOf algR cf Rplus K starE starA srcA rfs (taylor t)) x y - t ^ (cTi cf - 1) / INR (fact (cTi cf - 1)) * fst (L (cTi cf)) x y).
Proof.
  unfold taylor at 2. change Rplus with (aAdd algR) at 1. rewrite (op_comb algR cf) by exact R0. unfold taylor. cbn [comb fst].
  destruct (cTi cf) as [|n] eqn:En; [lia|]. replace (S n - 1)%nat with n by lia. cbn [AderSpec.sum]. rewrite escal_R.
  change (fst (opOf algR cf (aAdd algR) K starE starA srcA rfs (L n)) x y) with (fst (L (S n)) x y).
  replace (aAdd algR _ _ - _) with (sum algR n (fun d => aMul algR (escal algR t d) (fst (L (S d)) x y))).
  2:{ cbn [aAdd aMul algR]. match goal with |- ?a = ?b + ?c - ?d => change d with c; assert (E : a = b) by reflexivity; rewrite E; lra end. }
  apply (derivable_pt_lim_ext (fun t => fst (L 0) x y + sum algR n (fun d => aMul algR (escal algR t (S d)) (fst (L (S d)) x y)))).
  - intros u. symmetry. etransitivity; [apply (sum_first n (fun d => aMul algR (escal algR u d) (fst (L d) x y)))|]. cbn. lra.
  - replace (sum algR n _) with (0 + sum algR n (fun d => aMul algR (escal algR t d) (fst (L (S d)) x y))) by lra.
    apply (derivable_pt_lim_plus (fun _ => fst (L 0) x y)); [apply derivable_pt_lim_const|].
    apply (D_sum n (fun d t => aMul algR (escal algR t (S d)) (fst (L (S d)) x y))). intros d Hd. rewrite escal_R.
    apply (derivable_pt_lim_ext (fun t => t ^ (S d) / INR (fact (S d)) * fst (L (S d)) x y)); [intros u; now rewrite escal_R|]. apply D_power.
Qed.
End Ode.

Section Real.
Variable cf : conf.
Local Notation nE := (nQtsE (cEl cf)).
Local Notation nMd := (nModes (cEl cf) (cSp cf)).
Local Notation sz := (nE * nMd * cCrs cf)%nat.

(** [P] and [I] are what the code computes from the time derivatives dE: the prediction at points in time and the integral over [0, dt] *)
Definition computes (dE : list (list R)) (P I : R -> nat -> @state R) : Prop :=
  (forall pts pre, sized (length pts) sz pre -> exists pre', evalPred 1 Rplus Rmult Rdiv INR cf pts dE pre = Ok pre' /\ length pre' = length pts /\
    forall pt, (pt < length pts)%nat -> rep algR cf nE nMd (nth pt pre' []) (fun z => fst (P (nth pt pts 0) z))) /\
  (forall dt o, length o = sz -> exists o', integrate Rplus Rmult Rdiv INR cf dt dE o = Ok o' /\ rep algR cf nE nMd o' (fun z => fst (I dt z))).

(** C75 over the reals: the prediction starts with the DOFs, solves the element's system up to the last Taylor term, and the integral
    is its antiderivative, which vanishes at the start *)
Theorem C75_prediction stiffT starE starA srcA rfs dE (q : nat -> @state R) :
  (1 <= cTi cf)%nat -> cRms cf = 0%nat -> lowers algR cf (predK algR cf stiffT) -> sized (cTi cf) sz dE ->
  (forall d, (d < cTi cf)%nat -> rep algR cf nE nMd (nth d dE []) (fun z => fst (powOf algR cf Rplus (predK algR cf stiffT) starE starA srcA rfs d (q z)))) ->
  exists P I, computes dE P I /\
    forall z x y, fst (P 0 z) x y = fst (q z) x y /\ fst (I 0 z) x y = 0 /\
      forall t, derivable_pt_lim (fun t => fst (I t z) x y) t (fst (P t z) x y) /\
        derivable_pt_lim (fun t => fst (P t z) x y) t
          (fst (opOf algR cf Rplus (predK algR cf stiffT) starE starA srcA rfs (P t z)) x y
           - t ^ (cTi cf - 1) / INR (fact (cTi cf - 1)) * fst (powOf algR cf Rplus (predK algR cf stiffT) starE starA srcA rfs (cTi cf) (q z)) x y).
Proof.
  intros HT R0 Low Sd D.
  exists (fun t z => taylor cf (predK algR cf stiffT) starE starA srcA rfs (q z) t), (fun t z => taylorInt cf (predK algR cf stiffT) starE starA srcA rfs (q z) t).
  split; [split|].
  - intros pts pre Sp. apply (C75_eval algR cf stiffT starE starA srcA rfs dE pts pre q HT R0 Low Sd Sp D).
  - intros dt o Lo. apply (C75_integrate algR cf stiffT starE starA srcA rfs dE dt o q HT Low Sd Lo D).
  - intros z x y. split; [apply taylor_0; auto|]. split; [apply taylorInt_0; auto|]. intros t. split; [apply taylorInt_D; auto|apply taylor_D; auto].
Qed.

(** triangles and tetrahedra, same order in space and time: the prediction is the exact solution of the element's system *)
Theorem C75_prediction_exact stiffT starE starA srcA rfs dE (q : nat -> @state R) :
  (cEl cf = TRIA3 \/ cEl cf = TET4) -> cTi cf = cSp cf -> (1 <= cSp cf)%nat -> cRms cf = 0%nat -> lowersAll algR cf (predK algR cf stiffT) -> sized (cTi cf) sz dE ->
  (forall d, (d < cTi cf)%nat -> rep algR cf nE nMd (nth d dE []) (fun z => fst (powOf algR cf Rplus (predK algR cf stiffT) starE starA srcA rfs d (q z)))) ->
  exists P I, computes dE P I /\
    forall z x y, (y < nMd)%nat -> fst (P 0 z) x y = fst (q z) x y /\ fst (I 0 z) x y = 0 /\
      forall t, derivable_pt_lim (fun t => fst (I t z) x y) t (fst (P t z) x y) /\
        derivable_pt_lim (fun t => fst (P t z) x y) t (fst (opOf algR cf Rplus (predK algR cf stiffT) starE starA srcA rfs (P t z)) x y).
Proof.
  intros El Ti Sp R0 Low Sd D.
  destruct (C75_prediction stiffT starE starA srcA rfs dE q) as (P & I & C & V); auto; [lia| |].
  - intros de di l y Hde. apply Low. lia.
  - exists P, I. split; [exact C|]. intros z x y Hy. destruct (V z x y) as (V1 & V2 & V3). split; [exact V1|]. split; [exact V2|]. intros t. destruct (V3 t) as (W1 & W2). split; [exact W1|].
    assert (Z : fst (powOf algR cf Rplus (predK algR cf stiffT) starE starA srcA rfs (cSp cf) (q z)) x y = 0).
    { apply (pow_zero algR cf (predK algR cf stiffT) starE starA srcA rfs (q z) (cSp cf) x y R0 Low); [lia|].
      split; [|exact Hy]. destruct El as [-> | ->]; cbn [nModesCk]; rewrite Nat.sub_diag; cbn; lia. }
    rewrite Ti, Z, Rmult_0_r, Rminus_0_r in W2. exact W2.
Qed.
End Real.
Print Assumptions C75_prediction.
Print Assumptions C75_prediction_exact.

(** second-order triangles, two simulations *)
Definition xCfg : conf := Build_conf TRIA3 2 2 2 0.
Definition xStiffT : list (list R) := [[0;0;0; 2;0;0; 0;0;0]; [0;0;0; 1;0;0; 3;0;0]].
Definition xStar : list (list R) := [map INR (seq 1 25); map INR (seq 7 25)].
Definition xQ (z : nat) : @state R := (fun x y => INR (1 + 100 * z + 10 * x + y), fun _ _ _ => 0).
Definition xArr (nq : nat) (f : nat -> nat -> nat -> R) : list R := flat_map (fun x => flat_map (fun y => map (fun z => f z x y) (seq 0 2)) (seq 0 3)) (seq 0 nq).
Lemma x_rep f : rep algR xCfg 5 3 (xArr 5 f) f.
Proof.
  split; [reflexivity|]. intros z x y Hz Hx Hy. cbn [cCrs xCfg] in *.
  do 2 (destruct z as [|z]; [do 5 (destruct x as [|x]; [do 3 (destruct y as [|y]; [reflexivity|]); lia|]); lia|]); lia.
Qed.
Example x_hypotheses : (cEl xCfg = TRIA3 \/ cEl xCfg = TET4) /\ cTi xCfg = cSp xCfg /\ lowersAll algR xCfg (predK algR xCfg xStiffT) /\ lowers algR xCfg (predK algR xCfg xStiffT) /\
  exists dE, sized 2 30 dE /\ forall d, (d < 2)%nat -> rep algR xCfg 5 3 (nth d dE []) (fun z => fst (powOf algR xCfg Rplus (predK algR xCfg xStiffT) xStar [] [] [] d (xQ z))).
Proof.
  assert (L : lowersAll algR xCfg (predK algR xCfg xStiffT)).
  { intros de di l y Hde Hdi Hl Hy. cbn in Hde, Hdi. assert (de = 1 \/ de = 2)%nat as [-> | ->] by lia; cbn in Hl, Hy;
    (destruct di as [|[|di]]; [| |lia]; do 3 (destruct l as [|l]; [do 3 (destruct y as [|y]; [first [lia|unfold predK, ent; cbn; lra]|]); lia|]); lia). }
  split; [left; reflexivity|]. split; [reflexivity|]. split; [exact L|]. split; [intros de di l y Hde; apply L; cbn in *; lia|].
  set (pw := fun d z => fst (powOf algR xCfg Rplus (predK algR xCfg xStiffT) xStar [] [] [] d (xQ z))).
  exists [xArr 5 (pw 0%nat); xArr 5 (pw 1%nat)].
  assert (D : forall d, (d < 2)%nat -> rep algR xCfg 5 3 (nth d [xArr 5 (pw 0%nat); xArr 5 (pw 1%nat)] []) (pw d)).
  { intros d Hd. destruct d as [|[|d]]; [apply x_rep|apply x_rep|lia]. }
  split; [|exact D]. split; [reflexivity|]. intros i Hi. apply (D i Hi).
Qed.
(** the solution is not constant *)
Example x_moves : fst (powOf algR xCfg Rplus (predK algR xCfg xStiffT) xStar [] [] [] 1 (xQ 0%nat)) 0%nat 0%nat <> 0.
Proof. cbn. unfold grad, predK, ent. cbn. lra. Qed.
