(** Memory of the sub-cell limiter. *)
From Coq Require Import List Arith.
Import ListNotations.

(** an array of [bytes] bytes with entries of [sz] bytes *)
Definition holds {A} (sz bytes : nat) (m : list A) : Prop := length m * sz = bytes.
(** [n] such arrays *)
Definition holdsAll {A} (n sz bytes : nat) (l : list (list A)) : Prop := length l = n /\ forall m, In m l -> holds sz bytes m.
(** all entries have the value [v] *)
Definition allAre {A} (v : A) (m : list A) : Prop := forall x, In x m -> x = v.
