(** Super-cells at internal boundaries: the notions the theorems are stated with. *)
From Coq Require Import List Arith Bool QArith.
From Verif Require Import Util.
Import ListNotations.
Open Scope nat_scope.

Section Table.
  Variable (nFas nSfs nScs : nat) (t : list (list nat)).
  Definition adj (a s : nat) : nat := nth s (nth a t []) 0.
  (** ghost sub-cell of sub-face [sf] of face [fa] *)
  Definition ghost (fa sf : nat) : nat := nScs + fa * nSfs + sf.
  (** sub-cell [a] is at face [fa] *)
  Definition touches (fa a : nat) : Prop := exists s sf, s < nFas /\ sf < nSfs /\ adj a s = ghost fa sf.
  (** [a] and [b] share a sub-face and are both at face [fa] *)
  Definition pair (fa a b : nat) : Prop := a < nScs /\ b < nScs /\ a <> b /\ touches fa a /\ touches fa b /\ exists s, s < nFas /\ adj a s = b.
  (** table of adjacent sub-cells: ghosts know the sub-cell inside and vice versa, at most one sub-face of a sub-cell is at a face, adjacency is symmetric, and at a face sub-cells have at most one neighbour which is at the face too *)
  Definition subTable : Prop :=
    length t = nScs + nFas * nSfs /\ (forall r, In r t -> length r = nFas) /\
    (forall fa sf, fa < nFas -> sf < nSfs -> adj (ghost fa sf) 0 < nScs /\ exists s, s < nFas /\ adj (adj (ghost fa sf) 0) s = ghost fa sf) /\
    (forall fa sf a s, fa < nFas -> sf < nSfs -> a < nScs -> s < nFas -> adj a s = ghost fa sf -> adj (ghost fa sf) 0 = a) /\
    (forall fa sf sf', fa < nFas -> sf < nSfs -> sf' < nSfs -> adj (ghost fa sf) 0 = adj (ghost fa sf') 0 -> sf = sf') /\
    (forall a s, a < nScs -> s < nFas -> adj a s < nScs -> exists s', s' < nFas /\ adj (adj a s) s' = a) /\
    (forall fa a b b', fa < nFas -> pair fa a b -> pair fa a b' -> b = b').
End Table.

(** all sub-cells of the stencils *)
Definition members (sts : list (nat * nat)) : list nat := flat_map (fun p => [fst p; snd p]) sts.

(** DOF of a quantity: sub-cell [sc], fused simulation [cr] *)
Definition dof (d : list (list Q)) (sc cr : nat) : Q := nth cr (nth sc d []) 0%Q.
(** [nScs] sub-cells of [nCrs] fused simulations *)
Definition plane (nScs nCrs : nat) (d : list (list Q)) : Prop := length d = nScs /\ forall r, In r d -> length r = nCrs.
Fixpoint sumQ (n : nat) (f : nat -> Q) : Q := match n with 0 => 0%Q | S n => (sumQ n f + f n)%Q end.
