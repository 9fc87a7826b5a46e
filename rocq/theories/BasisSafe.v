(** All divisors of an expression are non-zero, if some given polynomials are. *)
From Coq Require Import List ZArith Reals Lra Lia Bool.
From Verif Require Import Util BasisEx BasisSpec BasisPoly.
Import ListNotations.
Local Open Scope R_scope.

Definition const3 (p : P3) : Z := match p with ((z :: _) :: _) :: _ => z | _ => 0%Z end.
Section Safe.
Variable Ls : list P3.
Fixpoint nz (e : ex) : bool :=
  match e with
  | Num z => negb (z =? 0)%Z | Mul a b => nz a && nz b | Neg a => nz a | Pow a _ => nz a
  | _ => existsb (fun L => let c := (- const3 (fst (norm e)))%Z in negb (c =? 0)%Z && isPoly e (scl3 c L)) Ls
  end.
Fixpoint safe (e : ex) : bool :=
  match e with
  | Num _ | Var _ => true
  | Add a b | Sub a b | Mul a b => safe a && safe b
  | Div a b => safe a && safe b && nz b
  | Neg a | Pow a _ => safe a
  end.
Variable x : nat -> R.
Hypothesis HL : forall L, In L Ls -> ev3 x L <> 0.
Lemma izr_nz z : negb (z =? 0)%Z = true -> IZR z <> 0.
Proof. intros H. apply negb_true_iff, Z.eqb_neq in H. now apply not_0_IZR. Qed.
Lemma nz_ok e : defined x e -> nz e = true -> evalE x e <> 0.
Proof using HL.
  assert (G : forall e, defined x e -> existsb (fun L => let c := (- const3 (fst (norm e)))%Z in negb (c =? 0)%Z && isPoly e (scl3 c L)) Ls = true -> evalE x e <> 0).
  { clear e. intros e D H. apply existsb_exists in H as (L & I & H). cbv zeta in H. apply andb_prop in H as (H1 & H2). rewrite (isPoly_ok x e _ H2 D), ev3_scl.
    apply Rmult_integral_contrapositive. split; [now apply izr_nz|now apply HL]. }
  induction e as [z|i|a IHa b IHb|a IHa b IHb|a IHa b IHb|a IHa b IHb|a IHa|a IHa n]; intros D H; try (apply G; assumption).
  - now apply izr_nz.
  - cbn in H, D |- *. apply andb_prop in H as (H1 & H2). destruct D. apply Rmult_integral_contrapositive. auto.
  - cbn in *. apply Ropp_neq_0_compat. auto.
  - cbn in *. apply pow_nonzero. auto.
Qed.
Lemma safe_ok e : safe e = true -> defined x e.
Proof using HL.
  induction e as [z|i|a IHa b IHb|a IHa b IHb|a IHa b IHb|a IHa b IHb|a IHa|a IHa n]; cbn [safe defined]; intros H; auto.
  1, 2, 3: apply andb_prop in H as (H1 & H2); auto.
  apply andb_prop in H as (H & H3). apply andb_prop in H as (H1 & H2). split; [auto|]. split; [auto|]. apply nz_ok; auto.
Qed.
End Safe.
