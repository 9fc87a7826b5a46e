(** Specification of the element-local part of the ADER-DG scheme for the advection equation: one quantity, whose Jacobians are scalars. *)
From Coq Require Import Ring.
From Verif Require Import Util MeshConn MatMul Props_Mat Ader AderSpec.

Section Spec.
Context {T : Type}.
Variables (A : alg T) (cf : conf).
Local Notation zero := (aZero A).
Local Notation add := (aAdd A).
Local Notation mul := (aMul A).
Local Notation nDi := (nDis (cEl cf)).
Local Notation nMd := (nModes (cEl cf) (cSp cf)).
Local Notation nMdFa := (nModesFa (cEl cf) (cSp cf)).
Local Notation sum := (sum A).
Local Notation ent := (ent A).

(** the array [n][nCr] holds the values [f z y] of simulation z and mode y *)
Definition rep1 (n : nat) (l : list T) (f : nat -> nat -> T) : Prop := rep A cf 1 n l (fun z _ y => f z y).
(** The operator: sum over the directions of the star "matrix" times the derivative; [K di l y]: derivative in direction di; its powers *)
Definition opS (K : nat -> nat -> nat -> T) (star : list T) (q : nat -> T) (y : nat) : T :=
  sum nDi (fun di => mul (nth di star zero) (sum nMd (fun l => mul (q l) (K di l y)))).
Fixpoint powS K star (n : nat) (q : nat -> T) : nat -> T := match n with O => q | S n => opS K star (powS K star n q) end.
(** integral of the Taylor polynomial over [0, dt] *)
Definition predS K star (dt : T) (q : nat -> T) (y : nat) : T := sum (cTi cf) (fun d => mul (scal A dt d) (powS K star d q y)).
(** surface: projection of the data [t] to the face with [F], multiplication with the flux solver [f], integration with [Ft] *)
Definition faceS (F : list T) (t : nat -> T) (m : nat) : T := sum nMd (fun l => mul (t l) (ent nMdFa F l m)).
Definition surfS (f : T) (F Ft : list T) (t : nat -> T) (y : nat) : T := sum nMdFa (fun m => mul (mul f (faceS F t m)) (ent nMd Ft m y)).
End Spec.
