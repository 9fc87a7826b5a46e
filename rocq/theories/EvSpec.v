(** EDGE-V's velocity models and mesh refinement: the notions the theorems of C95 are stated with. *)
From Coq Require Import List Arith Reals Permutation.
Import ListNotations.
Open Scope R_scope.

(** the iterations 0, ..., n - 1 are distributed to threads: every one belongs to exactly one thread *)
Definition distribution (n : nat) (ts : list (list nat)) : Prop := Permutation (concat ts) (seq 0 n).

(** total, mean, least and greatest of a list of numbers *)
Definition total (l : list R) : R := fold_right Rplus 0 l.
Definition mean (l : list R) : R := total l / INR (length l).
Definition isMin (l : list R) (m : R) : Prop := In m l /\ forall x, In x l -> m <= x.
Definition isMax (l : list R) (m : R) : Prop := In m l /\ forall x, In x l -> x <= m.

(** the vertices of an element; a valid mesh *)
Definition vesOf (nElVes : nat) (elVe : list nat) (el : nat) : list nat := map (fun ve => nth (el * nElVes + ve) elVe 0%nat) (seq 0 nElVes).
Definition validMesh (nVes nEls nElVes : nat) (elVe : list nat) : Prop :=
  (0 < nElVes)%nat /\ length elVe = (nEls * nElVes)%nat /\ forall v, In v elVe -> (v < nVes)%nat.

(** values of vertices *)
Definition at_ (l : list R) (vs : list nat) : list R := map (fun v => nth v l 0) vs.

(** grid lines [l] in increasing order; [p] is in the interval which ends at line i *)
Definition increasing (l : list R) : Prop := forall i j, (i < j < length l)%nat -> nth i l 0 < nth j l 0.
Definition interval (l : list R) (p : R) (i : nat) : Prop := (0 < i < length l)%nat /\ nth (i - 1) l 0 < p <= nth i l 0.
