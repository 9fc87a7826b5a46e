(** Specification of the balance of the advected quantity in the local time stepping scheme of a whole mesh. *)
From Verif Require Import Util MeshConn MatMul Props_Mat Sparse Lts Ader AderSpec Props_Ader AdvK AdvKSpec AderElSpec AderLtsSpec AdvLtsSpec.
Local Open Scope nat_scope.

Section Cons.
Context {T : Type}.
Variables (A : alg T) (cf : conf) (S : @advS T) (n : nat).
Variables (mesh : nat -> nat -> nbr) (lvl : nat -> nat) (dt hdt : nat -> nat -> T).
Local Notation zero := (aZero A).
Local Notation add := (aAdd A).
Local Notation mul := (aMul A).
Local Notation sum := (AderSpec.sum A).
Local Notation nMd := (nModes (cEl cf) (cSp cf)).
Local Notation nMdFa := (nModesFa (cEl cf) (cSp cf)).
Local Notation nFa := (nElFas (cEl cf)).

(** [w el]: weight of element el, e.g. its volume; mode 0 is the mean value in the element.  The amount in a state of all elements. *)
Variable w : nat -> T.
Definition amount (q : nat -> nat -> T) : T := sum n (fun el => mul (w el) (q el 0)).
(** Mode 0 is the constant function: its gradient vanishes; of the modes of a face, only the constant one has a mean value, with the same factor for all faces; the mean value at a face does
    not depend on the rotation of the neighbour. *)
Definition constant0 : Prop :=
  (forall di l, di < nDis (cEl cf) -> l < nMd -> ent A nMd (nth di (gSt S) []) l 0 = zero) /\
  (forall fa m, fa < nFa -> 0 < m < nMdFa -> ent A nMd (nth fa (gFT S) []) m 0 = zero) /\
  (forall fa fa', fa < nFa -> fa' < nFa -> ent A nMd (nth fa (gFT S) []) 0 0 = ent A nMd (nth fa' (gFT S) []) 0 0) /\
  (forall el fa ne v f l, el < n -> fa < nFa -> mesh el fa = Next ne v f -> l < nMd -> ent A nMdFa (nth (nFa + (v * nFa + f)) (gLN S) []) l 0 = ent A nMdFa (nth f (gLN S) []) l 0).
(** flux solvers: what leaves an element enters the element behind the face *)
Definition fluxCons : Prop := forall el fa ne v f, el < n -> fa < nFa -> mesh el fa = Next ne v f ->
  add (mul (w el) (fsOwn A S el fa)) (mul (w ne) (fsNeigh A cf S ne f)) = zero.
(** faces are seen from both sides; the time steps of neighbours differ by at most one group *)
Definition meshSymA : Prop := forall el fa ne v f, el < n -> fa < nFa -> mesh el fa = Next ne v f ->
  ne < n /\ f < nFa /\ (lvl el <= Datatypes.S (lvl ne) /\ lvl ne <= Datatypes.S (lvl el)) /\ exists v', mesh ne f = Next el v' fa.
Definition closedA : Prop := forall el fa, el < n -> fa < nFa -> mesh el fa <> Outer.
(** numbers of updates, after which all elements have reached the same time: an element of group g has time steps of 2^g units *)
Definition synchronizedA (c : nat -> nat) : Prop := forall el ne, el < n -> ne < n -> c el * 2 ^ lvl el = c ne * 2 ^ lvl ne.
(** what enters through the boundary in the first [c el] updates of the elements; the data behind the boundary is the element's own *)
Definition entered (Q : nat -> nat -> nat -> T) (c : nat -> nat) : T :=
  sum n (fun el => sum nFa (fun fa => match mesh el fa with
    | Outer => mul (w el) (sum (c el) (fun k => surfS A cf (add (fsOwn A S el fa) (fsNeigh A cf S el fa)) (nth fa (gLN S) []) (nth fa (gFT S) []) (fullA A cf S lvl dt Q el k) 0))
    | Next _ _ _ => zero end)).
End Cons.
