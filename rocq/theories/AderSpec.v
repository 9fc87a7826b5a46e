(** Specification of the element-local part of the ADER-DG scheme: sums, arrays as functions, the operator of an element, its powers,
    the Taylor coefficients and the surface terms.  No definition of the model of the kernels is used, except for the numbers of
    modes and quantities and for the position of an entry in an array. *)
From Coq Require Import Ring.
From Verif Require Import Util MeshConn MatMul Props_Mat Ader.

(** scalars with the laws of a commutative ring; the division and the conversion of natural numbers are arbitrary *)
Record alg (T : Type) := {
  aZero : T; aOne : T; aAdd : T -> T -> T; aSub : T -> T -> T; aMul : T -> T -> T; aDiv : T -> T -> T; aOpp : T -> T; aOfN : nat -> T; aIsz : T -> bool;
  aRT : ring_theory aZero aOne aAdd aMul aSub aOpp eq;
  aIz : aIsz aZero = true;
  aIo : aIsz aOne = false }.
Arguments aZero {T}. Arguments aOne {T}. Arguments aAdd {T}. Arguments aSub {T}. Arguments aMul {T}. Arguments aDiv {T}. Arguments aOpp {T}. Arguments aOfN {T}.
Arguments aIsz {T}. Arguments aRT {T}. Arguments aIz {T}. Arguments aIo {T}.

(** all entries of a list of arrays have a given length *)
Definition sized {X} (n k : nat) (l : list (list X)) : Prop := length l = n /\ forall i, i < n -> length (nth i l []) = k.

Section Spec.
Context {T : Type}.
Variables (A : alg T) (cf : conf).
Local Notation zero := (aZero A).
Local Notation one := (aOne A).
Local Notation add := (aAdd A).
Local Notation mul := (aMul A).
Local Notation div := (aDiv A).
Local Notation ofN := (aOfN A).
Local Notation nDi := (nDis (cEl cf)).
Local Notation nMd := (nModes (cEl cf) (cSp cf)).
Local Notation nMdFa := (nModesFa (cEl cf) (cSp cf)).
Local Notation ck_ := (nModesCk (cEl cf) (cSp cf)).
Local Notation nE := (nQtsE (cEl cf)).
Local Notation nM := (nQtsM (cEl cf)).
Local Notation nCr := (cCrs cf).
Local Notation nRm := (cRms cf).

(** sum of f over 0..n-1 *)
Fixpoint sum (n : nat) (f : nat -> T) : T := match n with O => zero | S n => add (sum n f) (f n) end.

(** entry of a dense matrix with ld columns *)
Definition ent (ld : nat) (a : list T) (x l : nat) : T := nth (x * ld + l) a zero.

(** the array [nq][n][nCr] holds the values [f z x y] of simulation z, quantity x and mode y *)
Definition rep (nq n : nat) (l : list T) (f : nat -> nat -> nat -> T) : Prop :=
  length l = nq * n * nCr /\ forall z x y, z < nCr -> x < nq -> y < n -> nth (pos nCr n x y z) l zero = f z x y.

(** *** The operator of the element-local system
    [K di l y]: derivative in direction di, [sE], [sA], [src]: star and source matrices, [rf]: relaxation frequencies.
    A state holds the elastic quantities and the ones of the relaxation mechanisms, for quantity x and mode y. *)
Definition state := ((nat -> nat -> T) * (nat -> nat -> nat -> T))%type.
Definition grad (K : nat -> nat -> nat -> T) (di : nat) (q : nat -> nat -> T) (x y : nat) : T := sum nMd (fun l => mul (q x l) (K di l y)).
Definition opE (K sE src : nat -> nat -> nat -> T) (s : state) (x y : nat) : T :=
  add (sum nDi (fun di => sum nE (fun j => mul (sE di x j) (grad K di (fst s) j y))))
      (if x <? nM then sum nRm (fun rm => sum nM (fun j => mul (src rm x j) (snd s rm j y))) else zero).
(** [sg]: sign of the relaxation term *)
Definition opA (sg : T -> T -> T) (K sA : nat -> nat -> nat -> T) (rf : nat -> T) (s : state) (rm x y : nat) : T :=
  mul (rf rm) (sg (sum nDi (fun di => sum nDi (fun j => mul (sA di x j) (grad K di (fst s) (nM + j) y)))) (snd s rm x y)).
Definition op sg K sE sA src rf (s : state) : state := (opE K sE src s, opA sg K sA rf s).
(** n-th power of the operator *)
Fixpoint pow sg K sE sA src rf (n : nat) (s : state) : state :=
  match n with O => s | S n => op sg K sE sA src rf (pow sg K sE sA src rf n s) end.

(** the operator given by arrays of matrices *)
Definition powOf sg K (starE starA srcA : list (list T)) (rfs : list T) : nat -> state -> state :=
  pow sg K (fun di x j => ent nE (nth di starE []) x j) (fun di x j => ent nDi (nth di starA []) x j)
    (fun rm x j => ent nM (nth rm srcA []) x j) (fun rm => nth rm rfs zero).
Definition opOf sg K starE starA srcA rfs : state -> state := powOf sg K starE starA srcA rfs 1.

(** linear combination of states *)
Definition comb (n : nat) (c : nat -> T) (f : nat -> state) : state :=
  (fun x y => sum n (fun d => mul (c d) (fst (f d) x y)), fun rm x y => sum n (fun d => mul (c d) (snd (f d) rm x y))).
Definition plus (a b : state) : state := (fun x y => add (fst a x y) (fst b x y), fun rm x y => add (snd a rm x y) (snd b rm x y)).

(** the arrays of the elastic quantities and of the relaxation mechanisms hold the states [q z] of all simulations *)
Definition holds (lE : list T) (lA : list (list T)) (q : nat -> state) : Prop :=
  rep nE nMd lE (fun z => fst (q z)) /\ length lA = nRm /\ forall rm, rm < nRm -> rep nM nMd (nth rm lA []) (fun z => snd (q z) rm).

(** sizes of the matrices and of the output arrays *)
Definition matrices (stiff starE starA srcA : list (list T)) (rfs : list T) : Prop :=
  sized nDi (nMd * nMd) stiff /\ sized nDi (nE * nE) starE /\ (0 < nRm -> sized nDi (nM * nDi) starA) /\ sized nRm (nM * nM) srcA /\ length rfs = nRm.
Definition ckArrays (junk scr : list T) (dE : list (list T)) (dA : list (list (list T))) (tE : list T) (tA : list (list T)) : Prop :=
  length junk = nM * nMd * nCr /\ length scr = nE * nMd * nCr /\ sized (cTi cf) (nE * nMd * nCr) dE /\
  (length dA = nRm /\ forall rm, rm < nRm -> sized (cTi cf) (nM * nMd * nCr) (nth rm dA [])) /\
  length tE = nE * nMd * nCr /\ sized nRm (nM * nMd * nCr) tA.

(** dT^(de+1) / (de+1)! *)
Fixpoint scal (dT : T) (de : nat) : T := match de with O => dT | S d => mul (scal dT d) (div dT (ofN (S d + 1))) end.
(** t^d / d! *)
Definition escal (t : T) := fix f (d : nat) : T := match d with O => one | S d => mul (f d) (div t (ofN (S d))) end.

(** the derivative lowers the degree: the first CK(de-1) modes have a derivative in the first CK(de) modes *)
Definition lowers (K : nat -> nat -> nat -> T) : Prop :=
  forall de di l y, 1 <= de < cTi cf -> di < nDi -> l < ck_ (de - 1) -> ck_ de <= y < nMd -> K di l y = zero.

(** *** Surface: projection of the data [t] to the face with the matrix [F]; application of the flux solver [fs] and integration
    against the basis with the matrix [Ft] *)
Definition faceInt (F : list T) (t : nat -> nat -> T) (x m : nat) : T := sum nMd (fun l => mul (t x l) (ent nMdFa F l m)).
Definition surf (fs F Ft : list T) (t : nat -> nat -> T) (x y : nat) : T :=
  sum nMdFa (fun m => mul (sum nE (fun j => mul (ent nE fs x j) (faceInt F t j m))) (ent nMd Ft m y)).
End Spec.
