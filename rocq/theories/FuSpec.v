(** Structure of the matrices which the kernels for fused simulations rely on. *)
From Verif Require Import Util MeshConn MatMul Ader AderSpec AderV MmXsmm FakeMats CscV XsmmSpec.

Section FuSpec.
Context {T : Type}.
Variables (A : alg T) (cf : conf).
Local Notation zero := (aZero A).
Local Notation nDi := (nDis (cEl cf)).
Local Notation nMd := (nModes (cEl cf) (cSp cf)).
Local Notation nMdFa := (nModesFa (cEl cf) (cSp cf)).
Local Notation nFa := (nElFas (cEl cf)).
Local Notation nE := (nQtsE (cEl cf)).
Local Notation nM := (nQtsM (cEl cf)).
Local Notation nRm := (cRms cf).
Local Notation ent := (ent A).

(** non-zero blocks of the transposed stiffness matrices: the derivative [de] uses the first [bd (de-1)] rows, [bd de] is the number of columns up to
    the last one with a non-zero value in these rows; the blocks shrink *)
Definition blocks (m : list (list T)) (bd : nat -> nat) : Prop :=
  bd 0 = nMd /\ forall de, 1 <= de < cTi cf ->
    0 < bd de <= nMd /\ (1 < de -> bd de < bd (de - 1)) /\
    (forall di l y, di < nDi -> l < bd (de - 1) -> bd de <= y < nMd -> ent nMd (nth di m []) l y = zero) /\
    (exists di l, di < nDi /\ l < bd (de - 1) /\ ent nMd (nth di m []) l (bd de - 1) <> zero) /\
    (forall di, di < nDi -> exists l y, l < bd (de - 1) /\ y < nMd /\ ent nMd (nth di m []) l y <> zero).
(** every column of every block has a non-zero value *)
Definition fullCols (m : list (list T)) (bd : nat -> nat) : Prop :=
  forall de di y, 1 <= de < cTi cf -> di < nDi -> y < bd de -> exists l, l < bd (de - 1) /\ ent nMd (nth di m []) l y <> zero.
Definition simplex : bool := match cEl cf with TET4 | TRIA3 => true | _ => false end.

(** stiffness matrices: [br] is the number of rows up to the last one with a non-zero value *)
Definition rowBlock (m : list (list T)) (br : nat) : Prop :=
  0 < br <= nMd /\ (forall di l y, di < nDi -> br <= l < nMd -> y < nMd -> ent nMd (nth di m []) l y = zero) /\
  (exists di y, di < nDi /\ y < nMd /\ ent nMd (nth di m []) (br - 1) y <> zero) /\
  (forall di, di < nDi -> exists l y, l < nMd /\ y < nMd /\ ent nMd (nth di m []) l y <> zero).
(** a column without values has none in the directions before *)
Definition colOrder (m : list (list T)) : Prop :=
  forall di y, di < nDi -> y < nMd -> (forall l, l < nMd -> ent nMd (nth di m []) l y = zero) ->
    forall d' l, d' < di -> l < nMd -> ent nMd (nth d' m []) l y = zero.
(** flux matrices: every column has a non-zero value *)
Definition fluxCols (fIntLN : list (list T)) : Prop :=
  forall i y, i < nFa + nFluxN (cEl cf) -> y < nMdFa -> exists l, l < nMd /\ ent nMdFa (nth i fIntLN []) l y <> zero.

(** [v] has the values of the dense matrix [a] with [m] rows and [n] columns for the pattern [p] (compressed rows), in the columns from [sh] on;
    other columns have no values *)
Definition compressed (p : list nat * list nat) (m n sh : nat) (v a : list T) : Prop :=
  stored A m (sh + n) (fst p) (snd p) v (fun c r => if c <? sh then zero else ent n a r (c - sh)).
Definition noEmptyRow (p : list nat * list nat) (m : nat) : Prop := forall r, r < m -> ~ noEntry (fst p) r.

(** The kernels with compressed rows do not use the number of rows of the second matrix: the entries of the sparse matrix are given by its
    pattern.  SurfIntFused.hpp 339 passes a number which is too small. *)
Definition ignoresK (f : gdesc -> nat -> list nat -> list nat -> list T -> list T -> list T -> res (list T)) : Prop :=
  forall m n k k' ldA ldB ldC acc, f (Build_gdesc m n k ldA ldB ldC acc) = f (Build_gdesc m n k' ldA ldB ldC acc).
End FuSpec.
