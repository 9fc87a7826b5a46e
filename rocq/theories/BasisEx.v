(** Expressions of the generated basis functions (src/dg/generated), their values and a verified normal form.
    Simplification: the arithmetic is that of the real numbers. *)
From Coq Require Import List ZArith Reals Lra Lia Bool.
Import ListNotations.

(** Expressions as they appear in the generated files: integer literals, coordinates, the operators and std::pow with a literal exponent. *)
Inductive ex := Num (z : Z) | Var (i : nat) | Add (a b : ex) | Sub (a b : ex) | Mul (a b : ex) | Div (a b : ex) | Neg (a : ex) | Pow (a : ex) (n : nat).
Definition exOfZ (z : Z) : ex := Num z.
Definition exToZ (e : ex) : option Z := match e with Num z => Some z | _ => None end.
Declare Scope ex_scope.
Delimit Scope ex_scope with ex.
Bind Scope ex_scope with ex.
Number Notation ex exOfZ exToZ : ex_scope.
Notation "a + b" := (Add a b) : ex_scope.
Notation "a - b" := (Sub a b) : ex_scope.
Notation "a * b" := (Mul a b) : ex_scope.
Notation "a / b" := (Div a b) : ex_scope.
Notation "- a" := (Neg a) : ex_scope.
Notation "a ^ n" := (Pow a n%nat) : ex_scope.
Notation x1 := (Var 0).
Notation x2 := (Var 1).
Notation x3 := (Var 2).

Local Open Scope R_scope.
(** value of an expression; it makes sense, if no divisor is zero: otherwise the program computes an infinity or no number *)
Fixpoint evalE (x : nat -> R) (e : ex) : R :=
  match e with
  | Num z => IZR z | Var i => x i | Add a b => evalE x a + evalE x b | Sub a b => evalE x a - evalE x b | Mul a b => evalE x a * evalE x b
  | Div a b => evalE x a / evalE x b | Neg a => - evalE x a | Pow a n => evalE x a ^ n
  end.
Fixpoint defined (x : nat -> R) (e : ex) : Prop :=
  match e with
  | Num _ | Var _ => True
  | Add a b | Sub a b | Mul a b => defined x a /\ defined x b
  | Div a b => defined x a /\ defined x b /\ evalE x b <> 0
  | Neg a | Pow a _ => defined x a
  end.

(** *** Polynomials: lists of coefficients, nested for several variables *)
Section Poly.
Context {A : Type}.
Variables (zA oneA : A) (addA mulA : A -> A -> A) (oppA : A -> A) (iszA : A -> bool).
Fixpoint padd (p q : list A) : list A := match p, q with [], _ => q | _, [] => p | a :: p, b :: q => addA a b :: padd p q end.
Definition popp (p : list A) : list A := map oppA p.
Fixpoint pmul (p q : list A) : list A := match p with [] => [] | a :: p => if iszA a then zA :: pmul p q else padd (map (mulA a) q) (zA :: pmul p q) end.
Definition pisz (p : list A) : bool := forallb iszA p.
Definition pcst (a : A) : list A := [a].
(** derivative: the factors 1, 2, ... are sums of ones *)
Fixpoint pdera (k : A) (p : list A) : list A := match p with [] => [] | a :: p => mulA k a :: pdera (addA k oneA) p end.
Definition pder (p : list A) : list A := match p with [] => [] | _ :: p => pdera oneA p end.

Variable ev : A -> R.
Fixpoint peval (x : R) (p : list A) : R := match p with [] => 0 | a :: p => ev a + x * peval x p end.
Hypothesis ev0 : ev zA = 0.
Hypothesis ev1 : ev oneA = 1.
Hypothesis evA : forall a b, ev (addA a b) = ev a + ev b.
Hypothesis evM : forall a b, ev (mulA a b) = ev a * ev b.
Hypothesis evO : forall a, ev (oppA a) = - ev a.
Hypothesis evZ : forall a, iszA a = true -> ev a = 0.
Lemma padd_ok x p q : peval x (padd p q) = peval x p + peval x q.
Proof using evA. revert q; induction p as [|a p IH]; intros [|b q]; cbn; try ring. rewrite evA, IH. ring. Qed.
Lemma popp_ok x p : peval x (popp p) = - peval x p.
Proof using evO. induction p as [|a p IH]; cbn; [ring|]. rewrite evO. fold (popp p). rewrite IH. ring. Qed.
Lemma pscale_ok x a p : peval x (map (mulA a) p) = ev a * peval x p.
Proof using evM. induction p as [|b p IH]; cbn; [ring|]. rewrite evM, IH. ring. Qed.
Lemma pmul_ok x p q : peval x (pmul p q) = peval x p * peval x q.
Proof using evA evM evZ ev0.
  induction p as [|a p IH]; cbn; [ring|]. destruct (iszA a) eqn:Z; [cbn; rewrite ev0, IH, (evZ a Z); ring|]. rewrite padd_ok, pscale_ok. cbn. rewrite ev0, IH. ring.
Qed.
Lemma pisz_ok x p : pisz p = true -> peval x p = 0.
Proof using evZ. induction p as [|a p IH]; cbn; [reflexivity|]. intros H. apply andb_prop in H as (H1 & H2). rewrite (evZ a H1), (IH H2). ring. Qed.
Lemma pcst_ok x a : peval x (pcst a) = ev a. Proof using. cbn. ring. Qed.

(** the formal derivative is the derivative in x *)
Fixpoint dval (x : R) (p : list A) : R := match p with [] => 0 | a :: p => peval x p + x * dval x p end.
Lemma dval_lim x p : derivable_pt_lim (fun x => peval x p) x (dval x p).
Proof using.
  induction p as [|a p IH]; cbn; [apply derivable_pt_lim_const|].
  replace (peval x p + x * dval x p) with (0 + (1 * peval x p + x * dval x p)) by ring.
  apply (derivable_pt_lim_plus (fun _ => ev a) (fun x => x * peval x p)); [apply derivable_pt_lim_const|].
  apply (derivable_pt_lim_mult (fun x => x) (fun x => peval x p)); [apply derivable_pt_lim_id|exact IH].
Qed.
Lemma pdera_val x p k : peval x (pdera k p) = ev k * peval x p + x * dval x p.
Proof using evA evM ev1. revert k; induction p as [|a p IH]; intros k; cbn; [ring|]. rewrite evM, IH, evA, ev1. ring. Qed.
Lemma pder_ok x p : derivable_pt_lim (fun x => peval x p) x (peval x (pder p)).
Proof using evA evM ev1.
  replace (peval x (pder p)) with (dval x p); [apply dval_lim|]. destruct p as [|a p]; cbn; [reflexivity|]. rewrite pdera_val, ev1. ring.
Qed.
End Poly.
(** derivative of the coefficients *)
Lemma pmap_der {A : Type} (der : A -> A) (evs : R -> A -> R) x y (p : list A) : (forall a, derivable_pt_lim (fun y => evs y a) y (evs y (der a))) ->
  derivable_pt_lim (fun y => peval (evs y) x p) y (peval (evs y) x (map der p)).
Proof.
  intros H. induction p as [|a p IH]; cbn; [apply derivable_pt_lim_const|].
  apply (derivable_pt_lim_plus (fun y => evs y a) (fun y => x * peval (evs y) x p)); [apply H|].
  replace (x * peval (evs y) x (map der p)) with (0 * peval (evs y) x p + x * peval (evs y) x (map der p)) by ring.
  apply (derivable_pt_lim_mult (fun _ => x) (fun y => peval (evs y) x p)); [apply derivable_pt_lim_const|exact IH].
Qed.

(** polynomials in the third, second and first coordinate with integer coefficients *)
Definition P1 := list Z.
Definition P2 := list P1.
Definition P3 := list P2.
Definition zisz (z : Z) : bool := Z.eqb z 0.
Definition add1 : P1 -> P1 -> P1 := padd Z.add.
Definition mul1 : P1 -> P1 -> P1 := pmul 0%Z Z.add Z.mul zisz.
Definition opp1 : P1 -> P1 := popp Z.opp.
Definition isz1 : P1 -> bool := pisz zisz.
Definition add2 : P2 -> P2 -> P2 := padd add1.
Definition mul2 : P2 -> P2 -> P2 := pmul [] add1 mul1 isz1.
Definition opp2 : P2 -> P2 := popp opp1.
Definition isz2 : P2 -> bool := pisz isz1.
Definition add3 : P3 -> P3 -> P3 := padd add2.
Definition mul3 : P3 -> P3 -> P3 := pmul [] add2 mul2 isz2.
Definition opp3 : P3 -> P3 := popp opp2.
Definition isz3 : P3 -> bool := pisz isz2.
Definition cst3 (z : Z) : P3 := [[[z]]].
Definition var3 (i : nat) : P3 := match i with O => [[]; [[1%Z]]] | S O => [[[]; [1%Z]]] | _ => [[[0%Z; 1%Z]]] end.
Fixpoint pow3 (p : P3) (n : nat) : P3 := match n with O => cst3 1 | S n => mul3 p (pow3 p n) end.
Definition der3 (i : nat) (p : P3) : P3 :=
  match i with
  | O => pder [[1%Z]] add2 mul2 p
  | S O => map (pder [1%Z] add1 mul1) p
  | _ => map (map (pder 1%Z Z.add Z.mul)) p
  end.

Definition ev1 (x : nat -> R) : P1 -> R := peval IZR (x 2%nat).
Definition ev2 (x : nat -> R) : P2 -> R := peval (ev1 x) (x 1%nat).
Definition ev3 (x : nat -> R) : P3 -> R := peval (ev2 x) (x 0%nat).
Section Ev.
Variable x : nat -> R.
Lemma zisz_ok z : zisz z = true -> IZR z = 0. Proof. unfold zisz. intros H. apply Z.eqb_eq in H. now subst. Qed.
Lemma ev1_add p q : ev1 x (add1 p q) = ev1 x p + ev1 x q. Proof. apply padd_ok, plus_IZR. Qed.
Lemma ev1_mul p q : ev1 x (mul1 p q) = ev1 x p * ev1 x q. Proof. apply pmul_ok; auto using plus_IZR, mult_IZR, zisz_ok. Qed.
Lemma ev1_opp p : ev1 x (opp1 p) = - ev1 x p. Proof. apply popp_ok, opp_IZR. Qed.
Lemma ev1_isz p : isz1 p = true -> ev1 x p = 0. Proof. apply pisz_ok. apply zisz_ok. Qed.
Lemma ev2_add p q : ev2 x (add2 p q) = ev2 x p + ev2 x q. Proof. apply padd_ok, ev1_add. Qed.
Lemma ev2_mul p q : ev2 x (mul2 p q) = ev2 x p * ev2 x q. Proof. apply pmul_ok; auto using ev1_add, ev1_mul, ev1_isz. Qed.
Lemma ev2_opp p : ev2 x (opp2 p) = - ev2 x p. Proof. apply popp_ok, ev1_opp. Qed.
Lemma ev2_isz p : isz2 p = true -> ev2 x p = 0. Proof. apply pisz_ok, ev1_isz. Qed.
Lemma ev3_add p q : ev3 x (add3 p q) = ev3 x p + ev3 x q. Proof. apply padd_ok, ev2_add. Qed.
Lemma ev3_mul p q : ev3 x (mul3 p q) = ev3 x p * ev3 x q. Proof. apply pmul_ok; auto using ev2_add, ev2_mul, ev2_isz. Qed.
Lemma ev3_opp p : ev3 x (opp3 p) = - ev3 x p. Proof. apply popp_ok, ev2_opp. Qed.
Lemma ev3_isz p : isz3 p = true -> ev3 x p = 0. Proof. apply pisz_ok, ev2_isz. Qed.
Lemma ev3_cst z : ev3 x (cst3 z) = IZR z. Proof. unfold ev3, ev2, ev1, cst3. cbn. ring. Qed.
Lemma ev3_pow p n : ev3 x (pow3 p n) = ev3 x p ^ n. Proof. induction n as [|n IH]; cbn [pow3 pow]; [apply ev3_cst|]. rewrite ev3_mul, IH. reflexivity. Qed.
End Ev.
Lemma ev3_var x i : (i < 3)%nat -> ev3 x (var3 i) = x i.
Proof. intros H. unfold ev3, ev2, ev1. destruct i as [|[|[|i]]]; [| | |lia]; cbn; ring. Qed.

(** the formal derivative in coordinate [i] *)
Definition upd (x : nat -> R) (i : nat) (v : R) : nat -> R := fun j => if Nat.eqb j i then v else x j.
Lemma der3_ok x i p : (i < 3)%nat -> derivable_pt_lim (fun v => ev3 (upd x i v) p) (x i) (ev3 x (der3 i p)).
Proof.
  intros Hi. destruct i as [|[|[|i]]]; [| | |lia].
  - apply (pder_ok [[1%Z]] add2 mul2 (ev2 x)); [unfold ev2, ev1; cbn; ring|apply ev2_add|apply ev2_mul].
  - apply (pmap_der (pder [1%Z] add1 mul1) (fun y a => peval (ev1 x) y a) (x 0%nat) (x 1%nat) p).
    intros a. apply (pder_ok [1%Z] add1 mul1 (ev1 x)); [unfold ev1; cbn; ring|apply ev1_add|apply ev1_mul].
  - apply (pmap_der (map (pder 1%Z Z.add Z.mul)) (fun y a => peval (peval IZR y) (x 1%nat) a) (x 0%nat) (x 2%nat) p).
    intros a. apply (pmap_der (pder 1%Z Z.add Z.mul) (fun y b => peval IZR y b) (x 1%nat) (x 2%nat) a).
    intros b. apply (pder_ok 1%Z Z.add Z.mul IZR); [reflexivity|apply plus_IZR|apply mult_IZR].
Qed.

(** *** Normal form: numerator and denominator *)
Definition eq3 (p q : P3) : bool := isz3 (add3 p (opp3 q)).
Lemma eq3_ok x p q : eq3 p q = true -> ev3 x p = ev3 x q.
Proof. intros H. apply (ev3_isz x) in H. rewrite ev3_add, ev3_opp in H. lra. Qed.
Definition addF (a b : P3 * P3) : P3 * P3 := if eq3 (snd a) (snd b) then (add3 (fst a) (fst b), snd a) else (add3 (mul3 (fst a) (snd b)) (mul3 (fst b) (snd a)), mul3 (snd a) (snd b)).
Fixpoint norm (e : ex) : P3 * P3 :=
  match e with
  | Num z => (cst3 z, cst3 1)
  | Var i => (var3 i, cst3 1)
  | Add a b => addF (norm a) (norm b)
  | Sub a b => addF (norm a) (let '(n, d) := norm b in (opp3 n, d))
  | Mul a b => let '(n, d) := norm a in let '(n', d') := norm b in (mul3 n n', mul3 d d')
  | Div a b => let '(n, d) := norm a in let '(n', d') := norm b in (mul3 n d', mul3 d n')
  | Neg a => let '(n, d) := norm a in (opp3 n, d)
  | Pow a k => let '(n, d) := norm a in (pow3 n k, pow3 d k)
  end.
Fixpoint vars (e : ex) : bool :=
  match e with Num _ => true | Var i => Nat.ltb i 3 | Add a b | Sub a b | Mul a b | Div a b => vars a && vars b | Neg a | Pow a _ => vars a end.
Definition frac (x : nat -> R) (v : R) (a : P3 * P3) : Prop := ev3 x (snd a) <> 0 /\ v * ev3 x (snd a) = ev3 x (fst a).
Lemma addF_ok x u v a b : frac x u a -> frac x v b -> frac x (u + v) (addF a b).
Proof.
  intros (A1 & A2) (B1 & B2). unfold addF. destruct (eq3 (snd a) (snd b)) eqn:E; split; cbn [fst snd].
  - exact A1.
  - apply (eq3_ok x) in E. rewrite ev3_add, <- A2, <- B2, <- E. ring.
  - rewrite ev3_mul. now apply Rmult_integral_contrapositive.
  - rewrite ev3_add, !ev3_mul, <- A2, <- B2. ring.
Qed.
Lemma norm_ok x e : vars e = true -> defined x e -> frac x (evalE x e) (norm e).
Proof.
  induction e as [z|i|a IHa b IHb|a IHa b IHb|a IHa b IHb|a IHa b IHb|a IHa|a IHa n]; cbn [vars defined evalE norm]; intros V D;
    try (apply andb_prop in V as (V1 & V2)).
  - split; cbn [fst snd]; rewrite !ev3_cst; [lra|ring].
  - apply Nat.ltb_lt in V. split; cbn [fst snd]; rewrite ev3_cst; [lra|]. rewrite (ev3_var x i V). ring.
  - apply addF_ok; tauto.
  - unfold Rminus. apply addF_ok; [tauto|]. destruct (IHb V2 (proj2 D)) as (B1 & B2). destruct (norm b) as (n & d). split; cbn [fst snd] in *; [exact B1|]. rewrite ev3_opp, <- B2. ring.
  - destruct (IHa V1 (proj1 D)) as (A1 & A2). destruct (IHb V2 (proj2 D)) as (B1 & B2). destruct (norm a) as (n & d), (norm b) as (n' & d'). cbn [fst snd] in *. split; cbn [fst snd]; rewrite !ev3_mul.
    + now apply Rmult_integral_contrapositive. + rewrite <- A2, <- B2. ring.
  - destruct D as (Da & Db & N). destruct (IHa V1 Da) as (A1 & A2). destruct (IHb V2 Db) as (B1 & B2). destruct (norm a) as (n & d), (norm b) as (n' & d'). cbn [fst snd] in *. split; cbn [fst snd]; rewrite !ev3_mul.
    + apply Rmult_integral_contrapositive. split; [exact A1|]. rewrite <- B2. now apply Rmult_integral_contrapositive.
    + rewrite <- A2, <- B2. field. exact N.
  - destruct (IHa V D) as (A1 & A2). destruct (norm a) as (n & d). split; cbn [fst snd] in *; [exact A1|]. rewrite ev3_opp, <- A2. ring.
  - destruct (IHa V D) as (A1 & A2). destruct (norm a) as (m & d). split; cbn [fst snd] in *; rewrite !ev3_pow.
    + now apply pow_nonzero. + rewrite <- A2, Rpow_mult_distr. reflexivity.
Qed.
(** the expression is the polynomial, wherever it is defined *)
Definition isPoly (e : ex) (p : P3) : bool := vars e && let '(n, d) := norm e in eq3 n (mul3 p d).
Lemma isPoly_ok x e p : isPoly e p = true -> defined x e -> evalE x e = ev3 x p.
Proof.
  unfold isPoly. intros H D. apply andb_prop in H as (V & H). destruct (norm_ok x e V D) as (N & E). destruct (norm e) as (n & d). cbn [fst snd] in *.
  apply (eq3_ok x) in H. rewrite ev3_mul in H. rewrite H in E. apply Rmult_eq_reg_r in E; assumption.
Qed.
