(** Evaluation of the basis functions (src/dg/Basis.cpp). *)
From Coq Require Import List ZArith Reals Lra Lia Bool.
From Verif Require Import Util BasisEx BasisCode2 BasisCode3 BasisSpec.
Import ListNotations.
Local Open Scope R_scope.

(** A floating point number or none (NaN, infinity): divisions by zero give no number.  Simplification: exact arithmetic. *)
Definition number := option R.
Definition nlift (f : R -> R -> R) (a b : number) : number := match a, b with Some u, Some v => Some (f u v) | _, _ => None end.
Fixpoint evalO (x : nat -> R) (e : ex) : number :=
  match e with
  | Num z => Some (IZR z) | Var i => Some (x i)
  | Add a b => nlift Rplus (evalO x a) (evalO x b) | Sub a b => nlift Rminus (evalO x a) (evalO x b) | Mul a b => nlift Rmult (evalO x a) (evalO x b)
  | Div a b => match evalO x a, evalO x b with Some u, Some v => if Req_EM_T v 0 then None else Some (u / v) | _, _ => None end
  | Neg a => option_map Ropp (evalO x a) | Pow a n => option_map (fun u => u ^ n) (evalO x a)
  end.

(** A generated file: assert( b < N ), then the branch of function [b]. *)
Definition branch (l : list ex) (b : nat) (x : nat -> R) : res number := match nth_error l b with Some e => Ok (evalO x e) | None => Er Echeck end.
Definition pt3 (x y z : R) : nat -> R := fun i => match i with O => x | S O => y | _ => z end.
(** Basis.cpp 233-243 (evalBasisLine, evalBasisDerLine) *)
Definition evalLine (b : nat) (xi : R) : res number := branch line_val b (pt3 xi 0 0).
Definition evalDerLine (b : nat) (xi : R) : res number := branch line_d1 b (pt3 xi 0 0).
(** one factor of the tensor products, 260-273, 344-362 *)
Definition factor (der : bool) (b : nat) (xi : R) : res number := if der then evalDerLine b xi else evalLine b xi.
(** Basis.cpp 245-274 (evalBasisQuad) *)
Definition evalQuad (b : nat) (xi eta : R) (der : Z) (order : nat) : res number :=
  u <- factor (der =? 0)%Z (b mod order) xi ;; v <- factor (der =? 1)%Z (b / order) eta ;; Ok (nlift Rmult u v).
(** Basis.cpp 276-297 (evalBasisTria) *)
Definition evalTria (b : nat) (x y : R) (der : Z) : res number :=
  branch (if (der =? 0)%Z then tria_d1 else if (der =? 1)%Z then tria_d2 else tria_val) b (pt3 x y 0).
(** Basis.cpp 299-325 (evalBasisTet) *)
Definition evalTet (b : nat) (x y z : R) (der : Z) : res number :=
  branch (if (der =? 0)%Z then tet_d1 else if (der =? 1)%Z then tet_d2 else if (der =? 2)%Z then tet_d3 else tet_val) b (pt3 x y z).
(** Basis.cpp 327-365 (evalBasisHex) *)
Definition evalHex (b : nat) (xi eta zeta : R) (der : Z) (order : nat) : res number :=
  u <- factor (der =? 0)%Z (b mod order) xi ;; v <- factor (der =? 1)%Z ((b mod (order * order)) / order) eta ;; w <- factor (der =? 2)%Z (b / (order * order)) zeta ;;
  Ok (nlift Rmult (nlift Rmult u v) w).
(** Basis.cpp 367-419 (evalBasis); 421-471 is the same for a pointer to the coordinates *)
Definition evalBasis (el : refEl) (b : nat) (x y z : R) (der : Z) (order : nat) : res number :=
  match el with
  | Line => if negb (der =? 1)%Z then evalLine b x else evalDerLine b x
  | Quad => evalQuad b x y der order
  | Tria => evalTria b x y der
  | Hex => evalHex b x y z der order
  | Tet => evalTet b x y z der
  end.

(** constants.hpp 112-125 (CE_N_ELEMENT_MODES) *)
Definition nMds (el : refEl) (o : nat) : nat :=
  match el with Line => o | Quad => o * o | Tria => (o * o + o) / 2 | Hex => o * o * o | Tet => o * (o + 1) * (o + 2) / 6 end%nat.

(** Basis.cpp 163-184 (modal2ptval): the sum over the modes; [ms]: coefficients *)
Fixpoint m2p (el : refEl) (order : nat) (x y z : R) (md : nat) (ms : list R) (acc : number) : res number :=
  match ms with [] => Ok acc | m :: ms => v <- evalBasis el md x y z (-1) order ;; m2p el order x y z (S md) ms (nlift Rplus acc (nlift Rmult v (Some m))) end.
Definition modal2ptval (el : refEl) (order : nat) (x y z : R) (ms : list R) : res number :=
  if (length ms =? nMds el order)%nat then m2p el order x y z 0 ms (Some 0) else Er Eub.

(** *** Facts of the evaluation *)
Lemma evalO_spec x e v : evalO x e = Some v <-> defined x e /\ v = evalE x e.
Proof.
  revert v. induction e as [z|i|a IHa b IHb|a IHa b IHb|a IHa b IHb|a IHa b IHb|a IHa|a IHa n]; intros v; cbn [evalO defined evalE].
  1, 2: split; [intros [= <-]; tauto|intros (_ & ->); reflexivity].
  1, 2, 3: destruct (evalO x a) as [u|], (evalO x b) as [w|]; cbn [nlift]; split; [intros [= <-]; destruct (proj1 (IHa u) eq_refl) as (? & <-), (proj1 (IHb w) eq_refl) as (? & <-); tauto| |discriminate| |discriminate| |discriminate|];
    intros ((Da & Db) & ->); pose proof (proj2 (IHa _) (conj Da eq_refl)) as A; pose proof (proj2 (IHb _) (conj Db eq_refl)) as B; congruence.
  - destruct (evalO x a) as [u|], (evalO x b) as [w|]; split; try discriminate.
    + destruct (Req_EM_T w 0); [discriminate|]. intros [= <-]. destruct (proj1 (IHa u) eq_refl) as (? & <-), (proj1 (IHb w) eq_refl) as (? & <-). tauto.
    + intros ((Da & Db & N) & ->); pose proof (proj2 (IHa _) (conj Da eq_refl)) as A; pose proof (proj2 (IHb _) (conj Db eq_refl)) as B. injection A as ->. injection B as ->. destruct (Req_EM_T (evalE x b) 0); [contradiction|reflexivity].
    + intros ((Da & Db & N) & ->); pose proof (proj2 (IHb _) (conj Db eq_refl)) as B; discriminate.
    + intros ((Da & Db & N) & ->); pose proof (proj2 (IHa _) (conj Da eq_refl)) as A; discriminate.
    + intros ((Da & Db & N) & ->); pose proof (proj2 (IHa _) (conj Da eq_refl)) as A; discriminate.
  - destruct (evalO x a) as [u|]; cbn; split; try discriminate; [intros [= <-]; destruct (proj1 (IHa u) eq_refl) as (? & <-); tauto| |]; intros (D & ->); pose proof (proj2 (IHa _) (conj D eq_refl)) as A; congruence.
  - destruct (evalO x a) as [u|]; cbn; split; try discriminate; [intros [= <-]; destruct (proj1 (IHa u) eq_refl) as (? & <-); tauto| |]; intros (D & ->); pose proof (proj2 (IHa _) (conj D eq_refl)) as A; congruence.
Qed.
