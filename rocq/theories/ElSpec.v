(** Linear elasticity in d = 2 (plane strain) or d = 3 dimensions: the notions the theorems about the seismic set-up are stated with.
    Nothing here is taken from the code except the order of the quantities in a state. *)
From Coq Require Import List Arith Reals.
From Verif Require Import MatSparse Props_MatSparse.
Import ListNotations.
Open Scope R_scope.

(** ** States *)

(** the independent entries of a symmetric tensor, in the order in which a state stores them *)
Definition pairs (d : nat) : list (nat * nat) :=
  if (d =? 2)%nat then [(0, 0); (1, 1); (0, 1)]%nat else [(0, 0); (1, 1); (2, 2); (0, 1); (1, 2); (0, 2)]%nat.
Definition nSt (d : nat) : nat := length (pairs d).
(** number of quantities: stresses and velocities *)
Definition nQt (d : nat) : nat := (nSt d + d)%nat.

(** position of entry (i,j) of the tensor *)
Fixpoint posOf (i j : nat) (l : list (nat * nat)) : nat :=
  match l with [] => 0 | (a, b) :: l => if ((a =? i) && (b =? j) || (a =? j) && (b =? i))%bool then 0 else S (posOf i j l) end%nat.

(** stress tensor, velocity *)
Definition sig (d : nat) (q : list R) (i j : nat) : R := nth (posOf i j (pairs d)) q 0.
Definition vel (d : nat) (q : list R) (i : nat) : R := nth (nSt d + i) q 0.

(** symmetric tensor, state *)
Definition mkT (d : nat) (s : nat -> nat -> R) : list R := map (fun p => s (fst p) (snd p)) (pairs d).
Definition mk (d : nat) (s : nat -> nat -> R) (v : nat -> R) : list R := mkT d s ++ map v (seq 0 d).

(** ** Vectors, matrices *)
Definition sum (n : nat) (f : nat -> R) : R := fold_left (fun a i => a + f i) (seq 0 n) 0.
Definition at1 (v : list R) (i : nat) : R := nth i v 0.
Definition dot (d : nat) (v w : nat -> R) : R := sum d (fun i => v i * w i).
Definition delta (i j : nat) : R := if (i =? j)%nat then 1 else 0.

(** product of a row-major matrix with m rows and n columns with a vector *)
Definition mv (m n : nat) (a : list R) (q : list R) : list R := map (fun i => sum n (fun j => nth (i * n + j) a 0 * nth j q 0)) (seq 0 m).

Definition vadd (a b : list R) : list R := map (fun p => fst p + snd p) (combine a b).
Definition vsub (a b : list R) : list R := map (fun p => fst p - snd p) (combine a b).
Definition vscale (c : R) (a : list R) : list R := map (fun x => c * x) a.
Definition zeros (n : nat) : list R := repeat 0 n.

(** ** Elastic waves *)

(** density and Lame parameters *)
Record material := { rho : R; lam : R; mu : R }.
(** a solid: positive definite energy *)
Definition solid (m : material) : Prop := 0 < rho m /\ 0 < mu m /\ 0 < 3 * lam m + 2 * mu m.
(** a fluid *)
Definition fluid (m : material) : Prop := 0 < rho m /\ mu m = 0 /\ 0 < lam m.

(** speeds of the compressional and shear waves *)
Definition speedP (m : material) : R := sqrt ((lam m + 2 * mu m) / rho m).
Definition speedS (m : material) : R := sqrt (mu m / rho m).

(** force on an area with normal n: sigma.n *)
Definition traction (d : nat) (q : list R) (n : nat -> R) (i : nat) : R := sum d (fun j => sig d q i j * n j).

(** strain rate of a plane wave in direction n with velocity slope v *)
Definition strain (v n : nat -> R) (i j : nat) : R := (v i * n j + v j * n i) / 2.

(** flux in direction n of the hyperbolic system. Hooke's law: d sigma / dt = lambda div v + 2 mu strain; Newton's law: rho dv / dt = div sigma. The
    system is dq/dt + sum_k d(flux e_k q)/dx_k = 0. *)
Definition flux (d : nat) (m : material) (n : nat -> R) (q : list R) : list R :=
  mk d (fun i j => - (lam m * dot d (vel d q) n * delta i j + 2 * mu m * strain (vel d q) n i j)) (fun i => - (traction d q n i / rho m)).

(** unit vector in coordinate direction k *)
Definition unitv (k : nat) : nat -> R := delta k.

Definition neg (n : nat -> R) (i : nat) : R := - n i.

(** a perturbation of a state that moves away from the face into the element with outer normal n: compressional and shear waves, which travel
    with the material's speeds against n *)
Definition entering (d : nat) (m : material) (n : nat -> R) (dq : list R) : Prop :=
  exists wp ws, length wp = nQt d /\ length ws = nQt d /\ dq = vadd wp ws /\
    flux d m n wp = vscale (- speedP m) wp /\ flux d m n ws = vscale (- speedS m) ws.

(** solution of the Riemann problem at a welded interface: [sL], [sR] are the states on both sides of the interface. They differ from the initial states
    by waves that move away from the interface; traction and velocity are continuous *)
Definition riemann (d : nat) (l r : material) (n : nat -> R) (qL qR sL sR : list R) : Prop :=
  length sL = nQt d /\ length sR = nQt d /\
  entering d l n (vsub sL qL) /\ entering d r (neg n) (vsub sR qR) /\
  (forall i, (i < d)%nat -> traction d sL n i = traction d sR n i) /\ (forall i, (i < d)%nat -> vel d sL i = vel d sR i).

(** state at a free surface: no traction, and it differs from the initial state by waves that move into the element *)
Definition freeState (d : nat) (m : material) (n : nat -> R) (q s : list R) : Prop :=
  length s = nQt d /\ entering d m n (vsub s q) /\ (forall i, (i < d)%nat -> traction d s n i = 0).

(** ** Energy *)

(** strain of a stress: inverse of Hooke's law *)
Definition compliance (d : nat) (m : material) (q : list R) (i j : nat) : R :=
  (sig d q i j - lam m / (INR d * lam m + 2 * mu m) * sum d (fun k => sig d q k k) * delta i j) / (2 * mu m).
(** twice the energy density (as bilinear form): kinetic energy and energy of the deformation *)
Definition energy2 (d : nat) (m : material) (q q' : list R) : R :=
  rho m * dot d (vel d q) (vel d q') + sum d (fun i => sum d (fun j => sig d q i j * compliance d m q' i j)).

(** energy that an element with state q loses through a point of its face when the flux there is [f]; half of the flux of q itself is balanced by the
    volume of the element *)
Definition loss (d : nat) (m : material) (n : nat -> R) (q f : list R) : R := energy2 d m q f - energy2 d m q (flux d m n q) / 2.

(** ** Frames *)
Definition unit2 (nx ny : R) : Prop := nx * nx + ny * ny = 1.
(** an orthonormal frame, of either orientation *)
Definition orthonormal (n s t : R * R * R) : Prop :=
  let dt a b := fst (fst a) * fst (fst b) + snd (fst a) * snd (fst b) + snd a * snd b in
  dt n n = 1 /\ dt s s = 1 /\ dt t t = 1 /\ dt n s = 0 /\ dt n t = 0 /\ dt s t = 0.
(** i-th entry of a vector *)
Definition co3 (n : R * R * R) (i : nat) : R := match i with O => fst (fst n) | S O => snd (fst n) | S (S O) => snd n | _ => 0 end.
Definition co2 (nx ny : R) (i : nat) : R := match i with O => nx | S O => ny | _ => 0 end.
(** coordinates of the k-th vector of a frame *)
Definition frame3 (n s t : R * R * R) (i k : nat) : R := match k with O => co3 n i | S O => co3 s i | _ => co3 t i end.
Definition frame2 (nx ny : R) (i k : nat) : R := match k with O => co2 nx ny i | _ => co2 (- ny) nx i end.

(** ** Strains, fluids *)

(** flux of the strain: minus the rate of the strain of velocities v at a face with normal n *)
Definition strainFlux (d : nat) (n v : nat -> R) : list R := mkT d (fun i j => - strain v n i j).

(** state of a fluid: the stress is a pressure *)
Definition hydrostatic (d : nat) (q : list R) : Prop := forall i j, (i < d)%nat -> (j < d)%nat -> sig d q i j = sig d q 0 0 * delta i j.
(** Riemann problem between two fluids: the velocity along the face may jump *)
Definition riemannF (d : nat) (l r : material) (n : nat -> R) (qL qR sL sR : list R) : Prop :=
  length sL = nQt d /\ length sR = nQt d /\
  entering d l n (vsub sL qL) /\ entering d r (neg n) (vsub sR qR) /\
  (forall i, (i < d)%nat -> traction d sL n i = traction d sR n i) /\ dot d (vel d sL) n = dot d (vel d sR) n.

(** ** Derivatives *)

(** sum_k c_k q_k, entries 0..n-1 *)
Definition lincomb (n d : nat) (c : nat -> R) (q : nat -> list R) : list R := map (fun i => sum d (fun k => c k * nth i (q k) 0)) (seq 0 n).

(** ** Sparse matrices *)

(** the compressed matrix with values [v] and the pattern (row pointers, column indices) of [s] has the entries of the dense matrix [a] with m rows and
    n columns, shifted by [sh] columns *)
Definition represents {T U : Type} (zero : T) (m n sh : nat) (v : list T) (s : comp U) (a : list T) : Prop :=
  length v = length (cIdx s) /\
  forall r c, (r < m)%nat -> (c < n)%nat ->
    let x := valuesAt (csrEntries zero m {| cVal := v; cPtr := cPtr s; cIdx := cIdx s |}) r (sh + c) in
    x = [nth (r * n + c) a zero] \/ x = [] /\ nth (r * n + c) a zero = zero.
