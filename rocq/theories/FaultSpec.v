(** Faults: the notions the theorems about internal boundaries and dynamic rupture are stated with. Nothing here is taken from the code. *)
From Coq Require Import List Arith Reals.
From Verif Require Import ElSpec.
Import ListNotations.
Open Scope R_scope.

(** length of a vector *)
Definition norm (d : nat) (v : nat -> R) : R := sqrt (dot d v v).
(** the part of a vector that is tangential to a plane with normal n *)
Definition tangential (d : nat) (n v : nat -> R) (i : nat) : R := v i - dot d v n * n i.

(** ** Friction *)

(** strength of a fault: friction coefficient times compression, plus cohesion; stresses are negative under compression, cohesion is given as a stress *)
Definition strength (muf sn0 co0 tn : R) : R := Rmax 0 (- (muf * (sn0 + tn) + co0)).

(** Coulomb's law of friction: the shear traction does not exceed the strength; if the fault slips the shear traction has the value of the strength; the
    shear traction acts against the slip. [tau]: shear traction on the first side, [slip]: velocity of the first side relative to the second side *)
Definition coulomb (d : nat) (st : R) (tau slip : nat -> R) : Prop :=
  norm d tau <= st /\
  ((exists i, (i < d)%nat /\ slip i <> 0) -> norm d tau = st) /\
  (forall i, (i < d)%nat -> norm d tau * slip i = - (norm d slip * tau i)).

(** States [sP], [sM] on both sides of a fault. [n] points from the plus side (material p) to the minus side (material m). They differ from the initial
    states by waves that move away from the fault; the traction and the normal velocity are continuous; the shear traction, together with the
    background stress [bg], and the slip satisfy Coulomb's law. [st]: strength in terms of the normal traction *)
Definition faultStates (d : nat) (p m : material) (n bg : nat -> R) (st : R -> R) (qP qM sP sM : list R) : Prop :=
  length sP = nQt d /\ length sM = nQt d /\
  entering d p n (vsub sP qP) /\ entering d m (neg n) (vsub sM qM) /\
  (forall i, (i < d)%nat -> traction d sP n i = traction d sM n i) /\ dot d (vel d sP) n = dot d (vel d sM) n /\
  coulomb d (st (dot d (traction d sP n) n)) (fun i => tangential d n (traction d sP n) i + bg i) (fun i => vel d sP i - vel d sM i).

(** linear slip weakening: friction coefficient after some slip *)
Definition weakened (mus mud dc slip : R) : R := Rmax mud (mus - (mus - mud) / dc * slip).

(** ** Rotations *)
Definition cross (v w : nat -> R) (i : nat) : R :=
  match i with O => v 1%nat * w 2%nat - v 2%nat * w 1%nat | S O => v 2%nat * w 0%nat - v 0%nat * w 2%nat | _ => v 0%nat * w 1%nat - v 1%nat * w 0%nat end.
(** entry of a row-major matrix with three columns, the vector of its column *)
Definition ent (r : list R) (i j : nat) : R := nth (i * 3 + j) r 0.
Definition applyM (r : list R) (v : nat -> R) (i : nat) : R := sum 3 (fun j => ent r i j * v j).
(** a rotation: keeps scalar products and the orientation *)
Definition rotation (r : list R) : Prop :=
  length r = 9%nat /\
  (forall v w, dot 3 (applyM r v) (applyM r w) = dot 3 v w) /\
  (forall v w i, (i < 3)%nat -> applyM r (cross v w) i = cross (applyM r v) (applyM r w) i).
(** the rotation that turns the direction of v into the direction of w on the shortest way: the axis is perpendicular to both *)
Definition turns (r : list R) (v w : nat -> R) : Prop :=
  rotation r /\ (forall i, (i < 3)%nat -> norm 3 w * applyM r v i = norm 3 v * w i) /\ (forall i, (i < 3)%nat -> applyM r (cross v w) i = cross v w i).
