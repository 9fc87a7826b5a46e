(** Waves in viscoelastic media: the notions the theorems about the attenuation set-up (C94) are stated with.  Nothing here is taken from the code, except the order of the
    quantities in a state (ElSpec).

    The medium has [n] relaxation mechanisms with angular frequencies [wl l].  Mechanism l remembers the strain rate: d zeta_l / dt = wl l (strain rate - zeta_l).  The rate
    of the stress is the one of Hooke's law with the elastic parameters plus the source matrices applied to the memory variables. *)
From Coq Require Import List Arith Reals.
From Verif Require Import ElSpec.
Import ListNotations.
Open Scope R_scope.

(** ** Complex numbers: (real part, imaginary part) *)
Definition Cx : Type := (R * R)%type.
Definition cadd (a b : Cx) : Cx := (fst a + fst b, snd a + snd b).
Definition cmul (a b : Cx) : Cx := (fst a * fst b - snd a * snd b, fst a * snd b + snd a * fst b).
Definition creal (x : R) : Cx := (x, 0).
Definition csum (n : nat) (f : nat -> Cx) : Cx := (sum n (fun i => fst (f i)), sum n (fun i => snd (f i))).

(** ** Moduli *)

(** [z l]: complex amplitude of the memory of mechanism l, if the strain rate is exp(i w t): i w z = wl (1 - z) *)
Definition remembers (n : nat) (w : R) (wl : nat -> R) (z : nat -> Cx) : Prop :=
  forall l, (l < n)%nat -> cmul (0, w) (z l) = cmul (creal (wl l)) (cadd (creal 1) (cmul (creal (-1)) (z l))).

(** modulus of compressional waves (stress rate along an axis for a unit strain rate along it), modulus of shear waves (half of the stress rate for a unit shear rate) of a
    medium with elastic material [m] and source matrices [src] *)
Definition modP (n : nat) (m : material) (src : nat -> list R) (z : nat -> Cx) : Cx :=
  cadd (creal (lam m + 2 * mu m)) (csum n (fun l => cmul (creal (nth 0 (src l) 0)) (z l))).
Definition modS (d n : nat) (m : material) (src : nat -> list R) (z : nat -> Cx) : Cx :=
  cadd (creal (mu m)) (csum n (fun l => cmul (creal (nth (nSt d * nSt d - 1) (src l) 0 / 2)) (z l))).
(** modulus, relative to the elastic one, of a medium with anelastic coefficients [y] *)
Definition relMod (n : nat) (y : nat -> R) (z : nat -> Cx) : Cx :=
  cadd (creal 1) (csum n (fun l => cmul (creal (- y l)) (z l))).

(** The quality factor of a modulus M is Re M / Im M.  [misfit q M]: zero if and only if the quality factor is q *)
Definition misfit (q : R) (M : Cx) : R := snd M - fst M / q.

(** A plane wave exp(i (w t - k s)) in a medium with modulus M has the complex wave number k with rho w^2 = M k^2. It travels with the velocity w / Re k, and its amplitude
    changes by the factor exp(Im k) per unit length. *)
Definition waveNumber (rh w : R) (M k : Cx) : Prop := cmul M (cmul k k) = creal (rh * (w * w)).

(** ** The equations *)

(** position plus h in direction of axis k *)
Definition shift (x : nat -> R) (k : nat) (h : R) : nat -> R := fun i => x i + h * delta k i.
Definition field : Type := nat -> (nat -> R) -> R -> R.
(** [ft], [fx k] are the derivatives in time and direction k *)
Definition derivatives (d : nat) (f ft : field) (fx : nat -> field) : Prop := forall i x t,
  derivable_pt_lim (fun s => f i x s) t (ft i x t) /\ forall k, (k < d)%nat -> derivable_pt_lim (fun h => f i (shift x k h) t) 0 (fx k i x t).
(** the first n values of a field *)
Definition vals (n : nat) (f : field) (x : nat -> R) (t : R) : list R := map (fun i => f i x t) (seq 0 n).

(** stresses and velocities [q], memory variables [ze l] satisfy the equations of the viscoelastic medium *)
Definition viscoelastic (d n : nat) (m : material) (wl : nat -> R) (src : nat -> list R) (q : field) (ze : nat -> field) : Prop :=
  exists qt qx zt zx, derivatives d q qt qx /\ (forall l, (l < n)%nat -> derivatives d (ze l) (zt l) (zx l)) /\
  forall x t,
    (forall i, (i < nQt d)%nat ->
       qt i x t + sum d (fun k => nth i (flux d m (unitv k) (vals (nQt d) (qx k) x t)) 0) =
       if (i <? nSt d)%nat then sum n (fun l => nth i (mv (nSt d) (nSt d) (src l) (vals (nSt d) (ze l) x t)) 0) else 0) /\
    (forall l i, (l < n)%nat -> (i < nSt d)%nat ->
       zt l i x t = wl l * (- sum d (fun k => nth i (strainFlux d (unitv k) (vel d (vals (nQt d) (qx k) x t))) 0) - ze l i x t)).

(** real part of a exp(i (w t - k s)), s: position along the direction nn *)
Definition planeWave (d : nat) (nn : nat -> R) (w : R) (k a : Cx) (x : nat -> R) (t : R) : R :=
  let s := dot d nn x in exp (snd k * s) * (fst a * cos (w * t - fst k * s) - snd a * sin (w * t - fst k * s)).

(** ** Least squares *)

(** [x] minimizes the sum of the squares of A x - b; A: row-major matrix with r rows and c columns *)
Definition residual (c : nat) (a b x : list R) (i : nat) : R := sum c (fun j => nth (i * c + j) a 0 * nth j x 0) - nth i b 0.
Definition sumSq (n : nat) (f : nat -> R) : R := sum n (fun i => f i * f i).
Definition leastSquares (r c : nat) (a b x : list R) : Prop :=
  length x = c /\ forall y, length y = c -> sumSq r (residual c a b x) <= sumSq r (residual c a b y).
