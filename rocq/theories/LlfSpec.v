(** The local Lax-Friedrichs scheme on sub-cells: the notions the theorems about the sub-cell solver are stated with. States, materials, fluxes and energies are those of ElSpec. *)
From Coq Require Import List Arith Bool Reals.
From Verif Require Import Util ElSpec Llf.
Import ListNotations.
Open Scope R_scope.

(** flux through a face with normal [n] from a cell with material [m] and state [q] to one with material [m'] and state [q']: mean of the fluxes of both sides, and the jump weighted by half of the largest speed *)
Definition llf (d : nat) (m m' : material) (n : nat -> R) (q q' : list R) : list R :=
  vsub (vscale (1 / 2) (vadd (flux d m n q) (flux d m' n q'))) (vscale (Rmax (speedP m) (speedP m') / 2) (vsub q' q)).

Definition vsum (n : nat) (l : list (list R)) : list R := fold_right vadd (zeros n) l.

(** ** Geometry of an element *)

(** normal of a face, as function *)
Definition nrm (f : face) : nat -> R := co3 (fN f).
Definition validFrame (d : nat) (f : face) : Prop :=
  if (d =? 2)%nat then unit2 (fst (fst (fN f))) (snd (fst (fN f))) else orthonormal (fN f) (fS f) (fT f).
Definition noFace : face := {| fN := (0, 0, 0); fS := (0, 0, 0); fT := (0, 0, 0); fAr := 0 |}.
Definition noMat : material := {| rho := 0; lam := 0; mu := 0 |}.

(** an element: id; adjacent elements (None: boundary) and faces; additional planes of the sub-cells; volume. Normals of faces point from the element with the smaller id to that with the larger one, at
    boundaries outwards *)
Record elem := { eId : nat; eAdj : list (option nat); eFa : list face; eAdd : list face; eVol : R }.

(** is the normal of face [fa] outward? *)
Definition outward (e : elem) (fa : nat) : bool := match nth fa (eAdj e) None with Some a => negb (a <? eId e)%nat | None => true end.
Definition nFaces (e : elem) : nat := length (eFa e).
Definition nPlanes (e : elem) : nat := (length (eFa e) + length (eAdd e))%nat.

(** planes of the sub-faces: those of the faces, those of the additional planes *)
Definition plane (e : elem) (id : nat) : face := nth id (eFa e ++ eAdd e) noFace.
(** is the normal of a plane the one of the solver: outward at faces, as stored for additional planes *)
Definition planeDir (e : elem) (id : nat) : bool := if (id <? nFaces e)%nat then outward e id else true.
Definition turn (b : bool) (n : nat -> R) : nat -> R := if b then n else neg n.

(** types of sub-faces: element's faces seen from the inside, from the outside, inner sub-faces parallel to a plane whose normal points outward, inward *)
Inductive sfType := Outer (fa : nat) | OuterRight (fa : nat) | InnerLeft (pl : nat) | InnerRight (pl : nat).
Definition code (e : elem) (t : sfType) : nat :=
  match t with
  | Outer fa => fa
  | OuterRight fa => nFaces e + fa
  | InnerLeft p => 2 * nFaces e + p
  | InnerRight p => 2 * nFaces e + nPlanes e + p
  end.
Definition validType (e : elem) (t : sfType) : Prop :=
  match t with Outer fa | OuterRight fa => (fa < nFaces e)%nat | InnerLeft p | InnerRight p => (p < nPlanes e)%nat end.
(** outward normal of a sub-face *)
Definition sfNormal (e : elem) (t : sfType) : nat -> R :=
  match t with
  | Outer fa => turn (outward e fa) (nrm (plane e fa))
  | OuterRight fa => neg (turn (outward e fa) (nrm (plane e fa)))
  | InnerLeft p => turn (planeDir e p) (nrm (plane e p))
  | InnerRight p => neg (turn (planeDir e p) (nrm (plane e p)))
  end.
Definition sfPlane (t : sfType) : nat := match t with Outer p | OuterRight p | InnerLeft p | InnerRight p => p end.
(** area of a sub-face: [nsf] of them per face *)
Definition sfArea (nsf : nat) (e : elem) (t : sfType) : R := fAr (plane e (sfPlane t)) / INR nsf.
(** material behind a sub-face; at boundaries that of the element *)
Definition matEl (mats : list material) (e : elem) : material := nth (eId e) mats noMat.
Definition matAd (mats : list material) (e : elem) (t : sfType) : material :=
  match t with
  | Outer fa | OuterRight fa => match nth fa (eAdj e) None with Some a => nth a mats noMat | None => matEl mats e end
  | _ => matEl mats e
  end.
(** volume of a sub-cell *)
Definition scVol (nsc : nat) (e : elem) : R := eVol e / INR nsc.

(** an element with valid ids, frames and volume *)
Definition wfElem (d : nat) (mats : list material) (e : elem) : Prop :=
  length (eAdj e) = nFaces e /\ (eId e < length mats)%nat /\ (forall a, In (Some a) (eAdj e) -> (a < length mats)%nat) /\
  (forall f, In f (eFa e ++ eAdd e) -> validFrame d f) /\ 0 < eVol e /\ (0 < nFaces e)%nat.

(** ** Sub-grids *)

(** adjacent sub-cell or ghost sub-cell; type *)
Record subface := { sAd : nat; sTy : sfType }.
(** a sub-grid: the sub-faces of every sub-cell; sub-cells and ghost sub-cells have numbers below [n] *)
Definition wfGrid (e : elem) (n : nat) (g : list (list subface)) : Prop :=
  forall sc, In sc g -> length sc = nFaces e /\ forall s, In s sc -> (sAd s < n)%nat /\ validType e (sTy s).
Definition adTable (g : list (list subface)) : list (list nat) := map (map sAd) g.
Definition tyTable (e : elem) (g : list (list subface)) : list (list nat) := map (map (fun s => code e (sTy s))) g.

(** change of a sub-cell with state [q] through one of its sub-faces in time [dt]: minus flux times area over volume. Net-updates of a face are taken from the ghost sub-cells. *)
Definition change (d : nat) (mats : list material) (e : elem) (nsf nsc : nat) (dt : R) (netUp : nat -> bool) (dofs : list (list R)) (q : list R) (s : subface) : list R :=
  let flx := vscale (- (dt / scVol nsc e * sfArea nsf e (sTy s))) (llf d (matEl mats e) (matAd mats e (sTy s)) (sfNormal e (sTy s)) q (nth (sAd s) dofs [])) in
  match sTy s with Outer fa => if netUp fa then nth (sAd s) dofs [] else flx | _ => flx end.

(** an inner sub-face *)
Definition inner (s : subface) : bool := match sTy s with InnerLeft _ | InnerRight _ => true | _ => false end.
(** sub-face [k] of sub-cell [i] *)
Definition sfAt (g : list (list subface)) (p : nat * nat) : option subface := match nth_error g (fst p) with Some sc => nth_error sc (snd p) | None => None end.
(** inner sub-faces come in pairs: the same area seen from both sub-cells, with opposite outward normals *)
Definition paired (d nsf : nat) (e : elem) (g : list (list subface)) : Prop :=
  exists pr : nat * nat -> nat * nat, forall p s, sfAt g p = Some s -> inner s = true -> pr (pr p) = p /\ exists s', sfAt g (pr p) = Some s' /\ inner s' = true /\ sAd s = fst (pr p) /\
    sfArea nsf e (sTy s') = sfArea nsf e (sTy s) /\ forall i, (i < d)%nat -> sfNormal e (sTy s') i = - sfNormal e (sTy s) i.

Definition rsum (l : list R) : R := fold_right Rplus 0 l.
(** a sub-cell is closed: its directed areas cancel *)
Definition closed (d nsf : nat) (e : elem) (sc : list subface) : Prop :=
  forall i, (i < d)%nat -> rsum (map (fun s => sfArea nsf e (sTy s) * sfNormal e (sTy s) i) sc) = 0.

(** bound of the energy, which a cell with state [q] gains per area and time through a face with flux [f]: minus twice the loss of ElSpec and a term of the explicit time step *)
Definition gain (d : nat) (m : material) (n : nat -> R) (q f : list R) : R :=
  let g := vsub f (flux d m n q) in energy2 d m g g / speedP m - 2 * loss d m n q f.

(** ** Set-up and meshes *)

(** memory of the solvers of an element after the set-up, started with any memory of the right size *)
Definition ready (d nsf nsc : nat) (mats : list material) (e : elem) (mem : list (list R) * list R) : Prop :=
  exists mem0, length (fst mem0) = (nPlanes e + nFaces e)%nat /\ length (snd mem0) = (nPlanes e + nFaces e)%nat /\
    init d (nFaces e) (nPlanes e) nsf nsc (eId e) (eAdj e) (eFa e) (eAdd e) mats (eVol e) mem0 = Ok mem.
(** states of the sub-cells and ghost sub-cells *)
Definition wfDofs (d nsc : nat) (g : list (list subface)) (dofs : list (list R)) : Prop :=
  length g = nsc /\ (nsc <= length dofs)%nat /\ forall q, In q dofs -> length q = nQt d.

Definition total (c : nat) (l : list (list R)) : R := rsum (map (fun q => nth c q 0) l).
Definition totalEnergy (d : nat) (m : material) (l : list (list R)) : R := rsum (map (fun q => energy2 d m q q) l).

(** part of a mesh: an element, its sub-grid, its states *)
Record part := { pE : elem; pG : list (list subface); pQ : list (list R) }.
(** all sub-cells of a mesh, with their element, state and sub-faces *)
Definition cells (M : list part) : list (part * (list R * list subface)) := flat_map (fun x => map (pair x) (combine (pQ x) (pG x))) M.
(** every sub-face has an opposite one: the state behind it is the one of the sub-cell of the opposite one, areas match and outward normals are opposite; or is one of its own, with zero state behind it *)
Definition joined (d nsf : nat) (M : list part) : Prop :=
  let cs := cells M in
  let at_ p x q s := exists sc, nth_error cs (fst p) = Some (x, (q, sc)) /\ nth_error sc (snd p) = Some s in
  exists pr : nat * nat -> nat * nat, forall p x q s, at_ p x q s -> pr (pr p) = p /\
    ((pr p = p /\ nth (sAd s) (pQ x) [] = zeros (nQt d)) \/
     exists x' q' s', at_ (pr p) x' q' s' /\ nth (sAd s) (pQ x) [] = q' /\ sfArea nsf (pE x') (sTy s') = sfArea nsf (pE x) (sTy s) /\ forall i, (i < d)%nat -> sfNormal (pE x') (sTy s') i = - sfNormal (pE x) (sTy s) i).
