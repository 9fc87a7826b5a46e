(** Specification of the balance of a conserved quantity (e.g. momentum) in the local time stepping scheme of a whole mesh. *)
From Verif Require Import Util MeshConn MatMul Props_Mat Sparse Lts Ader AderSpec Props_Ader AderEl AderElSpec AderLtsSpec.
Local Open Scope nat_scope.

Section Cons.
Context {T : Type}.
Variables (A : alg T) (cf : conf) (U : @setup T).
Variables (mesh : nat -> nat -> face) (lvl : nat -> nat) (dt hdt : nat -> nat -> T).
Local Notation zero := (aZero A).
Local Notation add := (aAdd A).
Local Notation mul := (aMul A).
Local Notation sum := (AderSpec.sum A).
Local Notation nMd := (nModes (cEl cf) (cSp cf)).
Local Notation nMdFa := (nModesFa (cEl cf) (cSp cf)).
Local Notation nFa := (nElFas (cEl cf)).
Local Notation nE := (nQtsE (cEl cf)).
Local Notation state := (@state T).

(** [w el x]: weight of quantity x of element el: the quantity's mean value in the element is that of mode 0, e.g. for momentum the weight of a velocity is
    density times volume.  The total of a state of all elements. *)
Variable w : nat -> nat -> T.
Definition total (q : nat -> state) : T := sum (uN U) (fun el => sum nE (fun x => mul (w el x) (fst (q el) x 0))).

(** flux solvers of an element's face for its own and for the neighbour's data; projection to the face; integration *)
Definition fs0 (el fa : nat) : list T := nth fa (nth el (mFsE0 (uS U)) []) [].
Definition fs1 (el fa : nat) : list T := nth fa (nth el (mFsE1 (uS U)) []) [].
Definition projF (i : nat) : list T := nth i (uLN U) [].
Definition intF (fa : nat) : list T := nth fa (uFT U) [].
(** weighted sum of column j of a flux solver, with the factor of the mean value of the face *)
Definition column (el fa : nat) (fs : list T) (j : nat) : T := mul (ent A nMd (intF fa) 0 0) (sum nE (fun x => mul (w el x) (ent A nE fs x j))).

(** Mode 0 is the constant function: its gradient vanishes; of the modes of a face, only the constant one has a mean value; the mean value at a face does not
    depend on the rotation of the neighbour.  No sources in the weighted quantities.  Fluxes: what leaves an element enters the neighbour; nothing leaves through a free
    surface. *)
Definition conservative : Prop :=
  (forall di l, di < nDis (cEl cf) -> l < nMd -> ent A nMd (nth di (uSt U) []) l 0 = zero) /\
  (forall fa m, fa < nFa -> 0 < m < nMdFa -> ent A nMd (intF fa) m 0 = zero) /\
  (forall el fa ne v f l, el < uN U -> fa < nFa -> mesh el fa = Inner ne v f -> l < nMd -> ent A nMdFa (projF (nFa + (v * nFa + f))) l 0 = ent A nMdFa (projF f) l 0) /\
  (0 < cRms cf -> forall el x, el < uN U -> x < nQtsM (cEl cf) -> w el x = zero) /\
  (forall el fa j, el < uN U -> fa < nFa -> j < nE -> match mesh el fa with
     | Inner ne v f => add (column el fa (fs0 el fa) j) (column ne f (fs1 ne f) j) = zero
     | Free => add (column el fa (fs0 el fa) j) (column el fa (fs1 el fa) j) = zero
     | Outflow => True end).

(** faces are seen from both sides; the time steps of neighbours differ by at most one group *)
Definition meshSym : Prop := forall el fa ne v f, el < uN U -> fa < nFa -> mesh el fa = Inner ne v f ->
  ne < uN U /\ f < nFa /\ (lvl el <= S (lvl ne) /\ lvl ne <= S (lvl el)) /\ exists v', mesh ne f = Inner el v' fa.
(** numbers of updates, after which all elements have reached the same time: an element of group g has time steps of 2^g units *)
Definition synchronized (c : nat -> nat) : Prop := forall el ne, el < uN U -> ne < uN U -> c el * 2 ^ lvl el = c ne * 2 ^ lvl ne.
(** what leaves the mesh at the outflow boundaries in the first [c el] updates of the elements *)
Definition outflowed (Q : nat -> nat -> state) (c : nat -> nat) : T :=
  sum (uN U) (fun el => sum nFa (fun fa => if isOut mesh el fa then
    sum (c el) (fun k => sum nE (fun j => mul (column el fa (fs0 el fa) j) (faceInt A cf (projF fa) (full A cf U lvl dt Q el k) j 0))) else zero)).
End Cons.
