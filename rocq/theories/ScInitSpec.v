(** From the tables of the pre-processing to the tables of the solver: the notions the theorems are stated with. *)
From Coq Require Import List Arith ZArith.
From Verif Require Import ScInit.
Import ListNotations.
Open Scope nat_scope.

(** [n] rows of [m] entries, [k] blocks of them *)
Definition table2 {A} (n m : nat) (t : list (list A)) : Prop := length t = n /\ forall r, In r t -> length r = m.
Definition table3 {A} (k n m : nat) (t : list (list (list A))) : Prop := length t = k /\ forall b, In b t -> table2 n m b.
(** entries of the pre-processing's tables: -1 or a valid id, which is smaller than the solver's invalid id *)
Definition idOk (v : Z) : Prop := (-1 <= v < 65535)%Z.
Definition idsOk (t : list (list Z)) : Prop := forall r v, In r t -> In v r -> idOk v.
(** entry of the solver's tables *)
Definition short (v : Z) : Z := if (v =? -1)%Z then 65535%Z else v.
(** entry [j] of row [i] is [v] *)
Definition entry {A} (t : list (list A)) (i j : nat) (v : A) : Prop := exists r, nth_error t i = Some r /\ nth_error r j = Some v.
(** every ghost sub-cell has one adjacent sub-cell, which comes first; [inv] is the invalid id *)
Definition ghostsOk (inv : Z) (nFas nSfs nScs : nat) (t : list (list Z)) : Prop :=
  forall fa sf, fa < nFas -> sf < nSfs -> let gh := nScs + fa * nSfs + sf in
  (exists v, entry t gh 0 v /\ v <> inv) /\ forall f2, 1 <= f2 < nFas -> entry t gh f2 inv.

(** possible orientations of the adjacent element, matrices for the DOFs at the surface *)
Definition orients (nDis nVesFa : nat) : nat := if nDis =? 3 then nVesFa else 1.
Definition surfaces (nDis nVesFa nFas : nat) : nat := if nDis <? 3 then nFas + nFas else nFas + nVesFa * nFas.
(** the solver's arrays have these dimensions *)
Definition shaped (nDis nVesFa nVesEl nFas nSfs nScs : nat) (o : conn) : Prop :=
  table2 (nScs + nFas * nSfs) nVesEl (scSv o) /\ table2 (nScs + nFas * nSfs) nFas (scSfSc o) /\ table2 nFas nSfs (faSfSc o) /\ table2 nScs nFas (scTySf o) /\ table2 (orients nDis nVesFa) nSfs (scDgAd o).
Definition opsShaped {V} (nDis nVesFa nFas nSfs nScs nMds : nat) (o : opsT V) : Prop :=
  table2 nMds nScs (scatter V o) /\ table3 (surfaces nDis nVesFa nFas) nMds nSfs (scatterSurf V o) /\ table2 nScs nMds (gather V o) /\ table3 nFas nSfs nMds (sfInt V o).
(** the size of an array is its size *)
Definition sized {V} (g : list V * nat) : Prop := length (fst g) = snd g.
(** text of the pre-processing to the arrays of the solver: ids, numbers *)
Definition built (t : list (list Z)) (g : list Z * nat) : Prop := convert Z Z 0%Z toId (write2d Z t) = Util.Ok g.
Definition built2 {V} (zero : V) (t : list (list V)) (g : list V * nat) : Prop := convert V V zero (fun v => Util.Ok v) (write2d V t) = Util.Ok g.
Definition built3 {V} (zero : V) (t : list (list (list V))) (g : list V * nat) : Prop := convert V V zero (fun v => Util.Ok v) (write3d V t) = Util.Ok g.
