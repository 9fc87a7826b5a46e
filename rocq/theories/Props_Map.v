(** C59: element mappings, C60: points of shared faces *)
From Coq Require Import List Arith Bool Lia Field QArith Qcanon Permutation.
From Verif Require Import Util Mapping Props_Fwave.
From Verif Require Comm.
Import ListNotations.
Open Scope nat_scope.

Section Map.
Context {T : Type}.
Variables (zero one half : T) (add sub mul div : T -> T -> T) (opp inv : T -> T) (ltb : T -> T -> bool).
Hypothesis OF : ofield zero one half add sub mul div opp inv ltb.

Definition mft := of_field _ _ _ _ _ _ _ _ _ _ OF.
Add Field TFm : mft.

Declare Scope t_scope.
Notation "0" := zero : t_scope.
Notation "1" := one : t_scope.
Infix "+" := add : t_scope.
Infix "-" := sub : t_scope.
Infix "*" := mul : t_scope.
Infix "/" := div : t_scope.
Notation "- x" := (opp x) : t_scope.
Notation "a < b" := (ltb a b = true) : t_scope.
Notation "a <= b" := (ltb b a = false) : t_scope.
Delimit Scope t_scope with t.

Notation refToPhy := (refToPhy zero one add sub mul).
Notation evalJac := (evalJac zero one add sub mul opp).
Notation faToVolRef := (faToVolRef zero one add sub mul).
Notation faLocToFaNei := (faLocToFaNei zero one sub).
Notation facePts := (facePts zero one add sub mul).
Notation lit := (lit zero one).

(** ** Specification *)

(** vertex i of an element *)
Definition vert (ves : list (list T)) (i : nat) : list T := map (fun l => nth i l zero) ves.
(** coordinates of the reference element *)
Definition refVs (t : ent) : list (list T) := map (map lit) (refVe t).
(** the arrays have the sizes of the element type *)
Definition elem (t : ent) (ves : list (list T)) := length ves = nDim t /\ Forall (fun l => length l = nVes t) ves.

(** twice the signed area of a triangle *)
Definition area2 (a b c : list T) : T :=
  ((nth 0 b 0 - nth 0 a 0) * (nth 1 c 0 - nth 1 a 0) - (nth 0 c 0 - nth 0 a 0) * (nth 1 b 0 - nth 1 a 0))%t.
(** six times the signed volume of a tetrahedron *)
Definition vol6 (a b c d : list T) : T :=
  let e p k := (nth k p 0 - nth k a 0)%t in
  (e b 0%nat * (e c 1%nat * e d 2%nat - e c 2%nat * e d 1%nat) - e b 1%nat * (e c 0%nat * e d 2%nat - e c 2%nat * e d 0%nat) + e b 2%nat * (e c 0%nat * e d 1%nat - e c 1%nat * e d 0%nat))%t.

(** axis-aligned rectangles and cuboids, with the vertices in the order of the reference element; [w] bounds the extents *)
Definition rect (w : T) (ves : list (list T)) := exists x0 x1 y0 y1, (w < x1 - x0)%t /\ (w < y1 - y0)%t /\ ves = [[x0; x1; x1; x0]; [y0; y0; y1; y1]].
Definition cuboid (w : T) (ves : list (list T)) := exists x0 x1 y0 y1 z0 z1, (w < x1 - x0)%t /\ (w < y1 - y0)%t /\ (w < z1 - z0)%t /\
  ves = [[x0; x1; x1; x0; x0; x1; x1; x0]; [y0; y0; y1; y1; y0; y0; y1; y1]; [z0; z0; z0; z0; z1; z1; z1; z1]].

(** ** Lemmas *)
Lemma len2 {A} (l : list A) : length l = 2 -> exists a b, l = [a; b].
Proof. destruct l as [|a [|b [|]]]; try discriminate. eauto. Qed.
Lemma len3 {A} (l : list A) : length l = 3 -> exists a b c, l = [a; b; c].
Proof. destruct l as [|a [|b [|c [|]]]]; try discriminate. eauto. Qed.
Lemma len4 {A} (l : list A) : length l = 4 -> exists a b c d, l = [a; b; c; d].
Proof. destruct l as [|a [|b [|c [|d [|]]]]]; try discriminate. eauto 6. Qed.
Lemma len8 {A} (l : list A) : length l = 8 -> exists a b c d e f g h, l = [a; b; c; d; e; f; g; h].
Proof. destruct l as [|a [|b [|c [|d [|e [|f [|g [|h [|]]]]]]]]]; try discriminate. intros _. exists a, b, c, d, e, f, g, h. reflexivity. Qed.

Lemma elem_line ves : elem LINE ves -> exists a b, ves = [[a; b]].
Proof. intros (H & F). cbn in H. destruct ves as [|l [|]]; try discriminate. inversion F; subst. destruct (len2 l) as (a & b & ->); eauto. Qed.
Lemma elem_tria ves : elem TRIA3 ves -> exists a b c d e f, ves = [[a; b; c]; [d; e; f]].
Proof. intros (H & F). apply len2 in H as (l & m & ->). inversion F; subst. inversion H2; subst. apply len3 in H1 as (a & b & c & ->). apply len3 in H3 as (d & e & f & ->). repeat eexists. Qed.
Lemma elem_quad ves : elem QUAD4R ves -> exists a b c d e f g h, ves = [[a; b; c; d]; [e; f; g; h]].
Proof. intros (H & F). apply len2 in H as (l & m & ->). inversion F; subst. inversion H2; subst. apply len4 in H1 as (a & b & c & d & ->). apply len4 in H3 as (e & f & g & h & ->). repeat eexists. Qed.
Lemma elem_tet ves : elem TET4 ves -> exists a b c d e f g h i j k l, ves = [[a; b; c; d]; [e; f; g; h]; [i; j; k; l]].
Proof. intros (H & F). apply len3 in H as (l & m & n & ->). inversion F; subst. inversion H2; subst. inversion H4; subst. apply len4 in H1 as (a & b & c & d & ->). apply len4 in H3 as (e & f & g & h & ->). apply len4 in H5 as (i & j & k & l & ->). repeat eexists. Qed.
Lemma elem_hex ves : elem HEX8R ves -> exists a b c, ves = [a; b; c] /\ length a = 8 /\ length b = 8 /\ length c = 8.
Proof. intros (H & F). apply len3 in H as (l & m & n & ->). inversion F; subst. inversion H2; subst. inversion H4; subst. eauto 8. Qed.

Lemma elem_pt t (xi : list T) : length xi = nDim t ->
  match nDim t with 1 => exists a, xi = [a] | 2 => exists a b, xi = [a; b] | 3 => exists a b c, xi = [a; b; c] | _ => True end.
Proof. destruct t; cbn; intros H; auto using len2, len3. destruct xi as [|a [|]]; try discriminate. eauto. Qed.

Section Tol.
(** tolerance of the mesh *)
Variable tolM : T.
Hypothesis TOL : ltb tolM zero = false.
Notation phyToRef := (phyToRef zero one add sub mul div ltb tolM).

(** the elements for which the solver is able to derive reference coordinates *)
Definition regular (t : ent) (ves : list (list T)) : Prop :=
  match t with
  | QUAD4R => rect tolM ves
  | TRIA3 => elem t ves /\ (tolM < area2 (vert ves 0) (vert ves 1) (vert ves 2))%t
  | HEX8R => cuboid tolM ves
  | TET4 => elem t ves /\ vol6 (vert ves 0) (vert ves 1) (vert ves 2) (vert ves 3) <> zero
  | _ => False
  end.

Lemma tol_pos a : (tolM < a)%t -> (0 < a)%t.
Proof. intros H. eapply (le_lt_trans _ _ _ _ _ _ _ _ _ _ OF); eauto. Qed.
Lemma tol_ne a : (tolM < a)%t -> a <> zero.
Proof. intros H. apply (pos_ne _ _ _ _ _ _ _ _ _ _ OF). apply tol_pos. exact H. Qed.

(** ** C59: coordinates of the reference element and physical coordinates *)

(** from the reference element to the physical element and back *)
Theorem C59_ref_phy_ref t ves xi : regular t ves -> length xi = nDim t ->
  exists x, refToPhy t ves xi = Ok x /\ length x = nDim t /\ phyToRef t ves x = Ok xi.
Proof.
  intros R L. apply elem_pt in L. destruct t; try contradiction R; cbn [nDim] in L; (eexists; split; [reflexivity|split; [reflexivity|]]).
  - destruct L as (a & b & ->). destruct R as (x0 & x1 & y0 & y1 & W1 & W2 & ->). unfold Mapping.phyToRef, phyToRefQuad4r. cbn [at2 nth]. rewrite W1. cbn [check bind]. rewrite W2. cbn [check bind].
    apply tol_ne in W1. apply tol_ne in W2. cbv. f_equal. f_equal; [|f_equal]; field; auto.
  - destruct L as (a & b & ->). destruct R as (E & W). apply elem_tria in E as (x0 & x1 & x2 & y0 & y1 & y2 & ->). cbv [area2 vert nth map] in W. unfold Mapping.phyToRef, phyToRefTria3. cbn [at2 nth]. rewrite W. cbn [check bind].
    apply tol_ne in W. cbv. f_equal. f_equal; [|f_equal]; field; auto.
  - destruct L as (a & b & c & ->). destruct R as (x0 & x1 & y0 & y1 & z0 & z1 & W1 & W2 & W3 & ->). unfold Mapping.phyToRef, phyToRefHex8r. cbn [at2 nth]. rewrite W1. cbn [check bind]. rewrite W2. cbn [check bind]. rewrite W3. cbn [check bind].
    apply tol_ne in W1. apply tol_ne in W2. apply tol_ne in W3. cbv. f_equal. f_equal; [|f_equal; [|f_equal]]; field; auto.
  - destruct L as (a & b & c & ->). destruct R as (E & W). apply elem_tet in E as (x0 & x1 & x2 & x3 & y0 & y1 & y2 & y3 & z0 & z1 & z2 & z3 & ->). cbv [vol6 vert nth map] in W.
    cbv. f_equal. f_equal; [|f_equal; [|f_equal]]; field; intros Z; apply W; rewrite <- Z; ring.
Qed.

(** from the physical element to the reference element and back *)
Theorem C59_phy_ref_phy t ves x : regular t ves -> length x = nDim t ->
  exists xi, phyToRef t ves x = Ok xi /\ length xi = nDim t /\ refToPhy t ves xi = Ok x.
Proof.
  intros R L. apply elem_pt in L. destruct t; try contradiction R; cbn [nDim] in L.
  - destruct L as (a & b & ->). destruct R as (x0 & x1 & y0 & y1 & W1 & W2 & ->). unfold Mapping.phyToRef, phyToRefQuad4r. cbn [at2 nth]. rewrite W1. cbn [check bind]. rewrite W2. cbn [check bind].
    eexists. split; [reflexivity|split; [reflexivity|]]. apply tol_ne in W1. apply tol_ne in W2. cbv. f_equal. f_equal; [|f_equal]; field; auto.
  - destruct L as (a & b & ->). destruct R as (E & W). apply elem_tria in E as (x0 & x1 & x2 & y0 & y1 & y2 & ->). cbv [area2 vert nth map] in W. unfold Mapping.phyToRef, phyToRefTria3. cbn [at2 nth]. rewrite W. cbn [check bind].
    eexists. split; [reflexivity|split; [reflexivity|]]. apply tol_ne in W. cbv. f_equal. f_equal; [|f_equal]; field; auto.
  - destruct L as (a & b & c & ->). destruct R as (x0 & x1 & y0 & y1 & z0 & z1 & W1 & W2 & W3 & ->). unfold Mapping.phyToRef, phyToRefHex8r. cbn [at2 nth]. rewrite W1. cbn [check bind]. rewrite W2. cbn [check bind]. rewrite W3. cbn [check bind].
    eexists. split; [reflexivity|split; [reflexivity|]]. apply tol_ne in W1. apply tol_ne in W2. apply tol_ne in W3. cbv. f_equal. f_equal; [|f_equal; [|f_equal]]; field; auto.
  - destruct L as (a & b & c & ->). destruct R as (E & W). apply elem_tet in E as (x0 & x1 & x2 & x3 & y0 & y1 & y2 & y3 & z0 & z1 & z2 & z3 & ->). cbv [vol6 vert nth map] in W.
    eexists. split; [reflexivity|split; [reflexivity|]]. cbv. f_equal. f_equal; [|f_equal; [|f_equal]]; field; intros Z; apply W; rewrite <- Z; ring.
Qed.

(** rejection of elements whose extents or area do not exceed the tolerance, and of lines *)
Theorem C59_reject t ves x :
  match t with
  | TRIA3 => (area2 (vert ves 0) (vert ves 1) (vert ves 2) <= tolM)%t /\ elem t ves
  | QUAD4R => (nth 0 (vert ves 1) 0 - nth 0 (vert ves 0) 0 <= tolM)%t \/ (nth 1 (vert ves 3) 0 - nth 1 (vert ves 0) 0 <= tolM)%t
  | HEX8R => (nth 0 (vert ves 1) 0 - nth 0 (vert ves 0) 0 <= tolM)%t \/ (nth 1 (vert ves 3) 0 - nth 1 (vert ves 0) 0 <= tolM)%t \/ (nth 2 (vert ves 4) 0 - nth 2 (vert ves 0) 0 <= tolM)%t
  | LINE => True
  | _ => False
  end -> elem t ves -> phyToRef t ves x = Er Echeck.
Proof.
  destruct t; intros H E; try contradiction H; try reflexivity.
  - apply elem_quad in E as (a & b & c & d & e & f & g & h & ->). cbv [vert nth map] in H. unfold Mapping.phyToRef, phyToRefQuad4r. cbn [at2 nth].
    destruct (ltb tolM (b - a)%t); cbn [check bind]; [|reflexivity]. destruct (ltb tolM (h - e)%t); cbn [check bind]; [|reflexivity]. destruct H; discriminate.
  - destruct H as (H & _). apply elem_tria in E as (a & b & c & d & e & f & ->). cbv [area2 vert nth map] in H. unfold Mapping.phyToRef, phyToRefTria3. cbn [at2 nth]. rewrite H. reflexivity.
  - apply elem_hex in E as (a & b & c & -> & A & B & C). apply len8 in A as (? & ? & ? & ? & ? & ? & ? & ? & ->). apply len8 in B as (? & ? & ? & ? & ? & ? & ? & ? & ->). apply len8 in C as (? & ? & ? & ? & ? & ? & ? & ? & ->).
    cbv [vert nth map] in H. unfold Mapping.phyToRef, phyToRefHex8r. cbn [at2 nth].
    repeat match goal with |- context [check (ltb ?a ?b)] => destruct (ltb a b); cbn [check bind]; [|reflexivity] end. destruct H as [H|[H|H]]; discriminate.
Qed.

End Tol.

(** the vertices of the reference element are mapped to the vertices of the element *)
Theorem C59_vertices t ves i : t <> POINT -> elem t ves -> i < nVes t -> refToPhy t ves (vert (refVs t) i) = Ok (vert ves i).
Proof.
  intros P E I. destruct t; [contradiction P; reflexivity|..]; cbn [nVes] in I.
  - apply elem_line in E as (a & b & ->). do 2 (destruct i as [|i]; [cbv; f_equal; f_equal; ring|]). lia.
  - apply elem_quad in E as (a & b & c & d & e & f & g & h & ->). do 4 (destruct i as [|i]; [cbv; f_equal; f_equal; [|f_equal]; ring|]). lia.
  - apply elem_tria in E as (a & b & c & d & e & f & ->). do 3 (destruct i as [|i]; [cbv; f_equal; f_equal; [|f_equal]; ring|]). lia.
  - apply elem_hex in E as (a & b & c & -> & A & B & C). apply len8 in A as (? & ? & ? & ? & ? & ? & ? & ? & ->). apply len8 in B as (? & ? & ? & ? & ? & ? & ? & ? & ->). apply len8 in C as (? & ? & ? & ? & ? & ? & ? & ? & ->).
    do 8 (destruct i as [|i]; [cbv; f_equal; f_equal; [|f_equal; [|f_equal]]; ring|]). lia.
  - apply elem_tet in E as (x0 & x1 & x2 & x3 & y0 & y1 & y2 & y3 & z0 & z1 & z2 & z3 & ->). do 4 (destruct i as [|i]; [cbv; f_equal; f_equal; [|f_equal; [|f_equal]]; ring|]). lia.
Qed.

(** elements whose mapping is affine *)
Definition affine (t : ent) (ves : list (list T)) : Prop :=
  match t with
  | LINE | TRIA3 | TET4 => elem t ves
  | QUAD4R => exists w, rect w ves
  | HEX8R => exists w, cuboid w ves
  | POINT => False
  end.

Notation sigma := (sigma zero add).

(** the Jacobian is the derivative of the mapping *)
Theorem C59_jacobian t ves xi xi' : affine t ves -> length xi = nDim t -> length xi' = nDim t ->
  exists x x' J, refToPhy t ves xi = Ok x /\ refToPhy t ves xi' = Ok x' /\ evalJac t ves = Ok J /\
  forall d2, d2 < nDim t -> (nth d2 x' 0 - nth d2 x 0)%t = sigma (nDim t) (fun d1 => nth d2 (nth d1 J []) 0 * (nth d1 xi' 0 - nth d1 xi 0))%t.
Proof.
  intros A L L'. apply elem_pt in L. apply elem_pt in L'. destruct t; try contradiction A; cbn [nDim] in *; do 3 eexists; (split; [reflexivity|split; [reflexivity|split; [reflexivity|]]]); intros d2 D.
  - destruct L as (a & ->). destruct L' as (a' & ->). apply elem_line in A as (x0 & x1 & ->). destruct d2 as [|d2]; [|lia]. cbv. ring.
  - destruct L as (a & b & ->). destruct L' as (a' & b' & ->). destruct A as (w & x0 & x1 & y0 & y1 & _ & _ & ->). do 2 (destruct d2 as [|d2]; [cbv; ring|]). lia.
  - destruct L as (a & b & ->). destruct L' as (a' & b' & ->). apply elem_tria in A as (x0 & x1 & x2 & y0 & y1 & y2 & ->). do 2 (destruct d2 as [|d2]; [cbv; ring|]). lia.
  - destruct L as (a & b & c & ->). destruct L' as (a' & b' & c' & ->). destruct A as (w & x0 & x1 & y0 & y1 & z0 & z1 & _ & _ & _ & ->). do 3 (destruct d2 as [|d2]; [cbv; ring|]). lia.
  - destruct L as (a & b & c & ->). destruct L' as (a' & b' & c' & ->). apply elem_tet in A as (x0 & x1 & x2 & x3 & y0 & y1 & y2 & y3 & z0 & z1 & z2 & z3 & ->). do 3 (destruct d2 as [|d2]; [cbv; ring|]). lia.
Qed.

(** corners of the reference elements of faces *)
Definition corner (t : ent) (k : nat) : list T :=
  match t with
  | QUAD4R | TRIA3 => vert (refVs LINE) k
  | HEX8R => vert (refVs QUAD4R) k
  | TET4 => vert (refVs TRIA3) k
  | _ => []
  end.
Definition nFaVes (t : ent) : nat := match t with POINT => 1 | LINE => 1 | QUAD4R => 2 | TRIA3 => 2 | HEX8R => 4 | TET4 => 3 end.
(** vertices of a face *)
Definition faceVs (t : ent) (ves : list (list T)) (fa : nat) : list (list T) := map (vert ves) (nth fa (faVeCc t) []).

(** the corners of a face are the vertices of the face in the element, in the order of the table of the faces' vertices *)
Theorem C59_faces t ves fa k : nDim t = 2 \/ nDim t = 3 -> elem t ves -> fa < nFas t -> k < nFaVes t ->
  exists xi, faToVolRef fa t (corner t k) = Ok xi /\ refToPhy t ves xi = Ok (nth k (faceVs t ves fa) []).
Proof.
  intros D E F K. destruct t; cbn in D; try lia; cbn [nFas nFaVes] in *.
  - apply elem_quad in E as (a & b & c & d & e & f & g & h & ->). do 4 (destruct fa as [|fa]; [do 2 (destruct k as [|k]; [eexists; split; [reflexivity|cbv; f_equal; f_equal; [|f_equal]; ring]|]); lia|]). lia.
  - apply elem_tria in E as (a & b & c & d & e & f & ->). do 3 (destruct fa as [|fa]; [do 2 (destruct k as [|k]; [eexists; split; [reflexivity|cbv; f_equal; f_equal; [|f_equal]; ring]|]); lia|]). lia.
  - apply elem_hex in E as (a & b & c & -> & A & B & C). apply len8 in A as (? & ? & ? & ? & ? & ? & ? & ? & ->). apply len8 in B as (? & ? & ? & ? & ? & ? & ? & ? & ->). apply len8 in C as (? & ? & ? & ? & ? & ? & ? & ? & ->).
    do 6 (destruct fa as [|fa]; [do 4 (destruct k as [|k]; [eexists; split; [reflexivity|cbv; f_equal; f_equal; [|f_equal; [|f_equal]]; ring]|]); lia|]). lia.
  - apply elem_tet in E as (x0 & x1 & x2 & x3 & y0 & y1 & y2 & y3 & z0 & z1 & z2 & z3 & ->). do 4 (destruct fa as [|fa]; [do 3 (destruct k as [|k]; [eexists; split; [reflexivity|cbv; f_equal; f_equal; [|f_equal; [|f_equal]]; ring]|]); lia|]). lia.
Qed.

(** ** C60: points of shared faces *)

(** translations, e.g. by the length of the domain at periodic boundaries *)
Definition shift (tau p : list T) : list T := map (fun xy => fst xy + snd xy)%t (combine p tau).

(** elements with positive orientation: the vertices are in the order of the reference element *)
Definition proper (t : ent) (ves : list (list T)) : Prop :=
  match t with
  | QUAD4R => rect zero ves
  | TRIA3 => elem t ves /\ (0 < area2 (vert ves 0) (vert ves 1) (vert ves 2))%t
  | HEX8R => cuboid zero ves
  | TET4 => elem t ves /\ (0 < vol6 (vert ves 0) (vert ves 1) (vert ves 2) (vert ves 3))%t
  | _ => False
  end.

(** signed area or volume spanned by a face and a point; the sign tells the side of the face *)
Definition side (t : ent) (f : list (list T)) (p : list T) : T :=
  match nDim t with
  | 2 => area2 (nth 0 f []) (nth 1 f []) p
  | _ => vol6 (nth 0 f []) (nth 1 f []) (nth 2 f []) p
  end.

(** two elements share a face: the faces have the same vertices, in any order, and the elements are on different sides *)
Definition share (t : ent) (tau : list T) (L N : list (list T)) (fL fN : nat) : Prop :=
  Permutation (faceVs t L fL) (map (shift tau) (faceVs t N fN)) /\
  forall i j, i < nVes t -> ~ In i (nth fL (faVeCc t) []) -> j < nVes t -> ~ In j (nth fN (faVeCc t) []) ->
    (side t (faceVs t L fL) (vert L i) * side t (faceVs t L fL) (shift tau (vert N j)) < 0)%t.

(** translated element *)
Definition shiftV (tau : list T) (ves : list (list T)) : list (list T) := map (fun lx => map (fun c => c + snd lx)%t (fst lx)) (combine ves tau).

Lemma rect_elem w ves : rect w ves -> elem QUAD4R ves.
Proof. intros (x0 & x1 & y0 & y1 & _ & _ & ->). split; [reflexivity|repeat constructor]. Qed.
Lemma cuboid_elem w ves : cuboid w ves -> elem HEX8R ves.
Proof. intros (x0 & x1 & y0 & y1 & z0 & z1 & _ & _ & _ & ->). split; [reflexivity|repeat constructor]. Qed.
Lemma proper_elem t ves : proper t ves -> elem t ves.
Proof. destruct t; cbn; try contradiction; try tauto; [apply rect_elem|apply cuboid_elem]. Qed.

Lemma elem_shift t ves tau : elem t ves -> length tau = nDim t -> elem t (shiftV tau ves).
Proof.
  intros (E & F) L. split; [unfold shiftV; rewrite map_length, combine_length; lia|]. apply Forall_forall. intros l H. unfold shiftV in H. apply in_map_iff in H as ((m & x) & <- & H).
  apply in_combine_l in H. rewrite map_length. rewrite Forall_forall in F. auto.
Qed.

Lemma vert_shift ves : forall tau i, length tau = length ves -> Forall (fun l => i < length l) ves -> vert (shiftV tau ves) i = shift tau (vert ves i).
Proof.
  induction ves as [|l ves IH]; intros [|x tau] i L F; try discriminate; [reflexivity|]. inversion F; subst. cbn. f_equal.
  - rewrite (nth_indep _ zero (zero + x)%t) by (rewrite map_length; auto). rewrite (map_nth (fun c => c + x)%t). reflexivity.
  - apply IH; auto.
Qed.
Lemma elem_vert t ves i : elem t ves -> i < nVes t -> Forall (fun l => i < length l) ves.
Proof. intros (_ & F) H. eapply Forall_impl; [|exact F]. cbn. intros a ->. auto. Qed.

Lemma faces_lt t fa i : In i (nth fa (faVeCc t) []) -> i < nVes t.
Proof. destruct t; cbn; repeat (destruct fa as [|fa]; cbn; try tauto; try lia). Qed.

Lemma faceVs_shift t ves tau fa : elem t ves -> length tau = nDim t -> faceVs t (shiftV tau ves) fa = map (shift tau) (faceVs t ves fa).
Proof.
  intros E L. unfold faceVs. rewrite map_map. apply map_ext_in. intros i I. apply vert_shift; [destruct E; lia|]. apply (elem_vert t); auto. eapply faces_lt; eauto.
Qed.

Lemma area2_shift a b c tau : length tau = 2 -> length a = 2 -> length b = 2 -> length c = 2 -> area2 (shift tau a) (shift tau b) (shift tau c) = area2 a b c.
Proof. intros H A B C. apply len2 in H as (? & ? & ->). apply len2 in A as (? & ? & ->). apply len2 in B as (? & ? & ->). apply len2 in C as (? & ? & ->). cbv. ring. Qed.
Lemma vol6_shift a b c d tau : length tau = 3 -> length a = 3 -> length b = 3 -> length c = 3 -> length d = 3 -> vol6 (shift tau a) (shift tau b) (shift tau c) (shift tau d) = vol6 a b c d.
Proof. intros H A B C D. apply len3 in H as (? & ? & ? & ->). apply len3 in A as (? & ? & ? & ->). apply len3 in B as (? & ? & ? & ->). apply len3 in C as (? & ? & ? & ->). apply len3 in D as (? & ? & ? & ->). cbv. ring. Qed.
Lemma vert_len ves i : length (vert ves i) = length ves.
Proof. apply map_length. Qed.

Lemma proper_shift t ves tau : proper t ves -> length tau = nDim t -> proper t (shiftV tau ves).
Proof.
  intros P L. destruct t; cbn [proper nDim] in *; try contradiction.
  - destruct P as (x0 & x1 & y0 & y1 & W1 & W2 & ->). apply len2 in L as (a & b & ->). exists (x0 + a)%t, (x1 + a)%t, (y0 + b)%t, (y1 + b)%t. split; [|split; [|reflexivity]].
    + replace (x1 + a - (x0 + a))%t with (x1 - x0)%t by ring. auto.
    + replace (y1 + b - (y0 + b))%t with (y1 - y0)%t by ring. auto.
  - destruct P as (E & P). assert (E' := E). destruct E' as (E1 & _). cbn in E1. split; [apply elem_shift; auto|]. rewrite !vert_shift by (try (rewrite E1; auto); apply (elem_vert TRIA3); cbn; auto; lia). rewrite area2_shift; auto; rewrite vert_len; auto.
  - destruct P as (x0 & x1 & y0 & y1 & z0 & z1 & W1 & W2 & W3 & ->). apply len3 in L as (a & b & c & ->). exists (x0 + a)%t, (x1 + a)%t, (y0 + b)%t, (y1 + b)%t, (z0 + c)%t, (z1 + c)%t. split; [|split; [|split; [|reflexivity]]].
    + replace (x1 + a - (x0 + a))%t with (x1 - x0)%t by ring. auto.
    + replace (y1 + b - (y0 + b))%t with (y1 - y0)%t by ring. auto.
    + replace (z1 + c - (z0 + c))%t with (z1 - z0)%t by ring. auto.
  - destruct P as (E & P). assert (E' := E). destruct E' as (E1 & _). cbn in E1. split; [apply elem_shift; auto|]. rewrite !vert_shift by (try (rewrite E1; auto); apply (elem_vert TET4); cbn; auto; lia). rewrite vol6_shift; auto; rewrite vert_len; auto.
Qed.

Lemma phy_shift t ves tau xi y : elem t ves -> length tau = nDim t -> length xi = nDim t -> refToPhy t (shiftV tau ves) xi = Ok y -> exists x, refToPhy t ves xi = Ok x /\ y = shift tau x.
Proof.
  intros E L X. apply elem_pt in X. destruct t; cbn [nDim] in *; try discriminate; intros [= <-]; (eexists; split; [reflexivity|]).
  - destruct tau as [|a [|]]; try discriminate. destruct X as (u & ->). apply elem_line in E as (x0 & x1 & ->). cbv. f_equal. ring.
  - apply len2 in L as (p & q & ->). destruct X as (u & v & ->). apply elem_quad in E as (a & b & c & d & e & f & g & h & ->). cbv. f_equal; [|f_equal]; ring.
  - apply len2 in L as (p & q & ->). destruct X as (u & v & ->). apply elem_tria in E as (a & b & c & d & e & f & ->). cbv. f_equal; [|f_equal]; ring.
  - apply len3 in L as (p & q & r & ->). destruct X as (u & v & w & ->). apply elem_hex in E as (a & b & c & -> & A & B & C). apply len8 in A as (? & ? & ? & ? & ? & ? & ? & ? & ->). apply len8 in B as (? & ? & ? & ? & ? & ? & ? & ? & ->). apply len8 in C as (? & ? & ? & ? & ? & ? & ? & ? & ->).
    cbv. f_equal; [|f_equal; [|f_equal]]; ring.
  - apply len3 in L as (p & q & r & ->). destruct X as (u & v & w & ->). apply elem_tet in E as (x0 & x1 & x2 & x3 & y0 & y1 & y2 & y3 & z0 & z1 & z2 & z3 & ->). cbv. f_equal; [|f_equal; [|f_equal]]; ring.
Qed.

(** points of faces, by the vertices of the face *)
Definition comb2 (a b : list T) (s : T) : list T := map (fun k => nth k a 0 + s * (nth k b 0 - nth k a 0))%t [0; 1].
Definition comb3 (a b c : list T) (u v : T) : list T := map (fun k => nth k a 0 + u * (nth k b 0 - nth k a 0) + v * (nth k c 0 - nth k a 0))%t [0; 1; 2].

Lemma pt_edge t ves fa s : nDim t = 2 -> elem t ves -> fa < nFas t ->
  exists xi, faToVolRef fa t [s] = Ok xi /\ length xi = 2 /\ refToPhy t ves xi = Ok (comb2 (nth 0 (faceVs t ves fa) []) (nth 1 (faceVs t ves fa) []) s).
Proof.
  intros D E F. destruct t; try discriminate; cbn [nFas] in F.
  - apply elem_quad in E as (a & b & c & d & e & f & g & h & ->). do 4 (destruct fa as [|fa]; [eexists; split; [reflexivity|split; [reflexivity|cbv; f_equal; f_equal; [|f_equal]; ring]]|]). lia.
  - apply elem_tria in E as (a & b & c & d & e & f & ->). do 3 (destruct fa as [|fa]; [eexists; split; [reflexivity|split; [reflexivity|cbv; f_equal; f_equal; [|f_equal]; ring]]|]). lia.
Qed.
Lemma pt_tet ves fa u v : elem TET4 ves -> fa < 4 ->
  exists xi, faToVolRef fa TET4 [u; v] = Ok xi /\ length xi = 3 /\ refToPhy TET4 ves xi = Ok (comb3 (nth 0 (faceVs TET4 ves fa) []) (nth 1 (faceVs TET4 ves fa) []) (nth 2 (faceVs TET4 ves fa) []) u v).
Proof.
  intros E F. apply elem_tet in E as (x0 & x1 & x2 & x3 & y0 & y1 & y2 & y3 & z0 & z1 & z2 & z3 & ->). do 4 (destruct fa as [|fa]; [eexists; split; [reflexivity|split; [reflexivity|cbv; f_equal; f_equal; [|f_equal; [|f_equal]]; ring]]|]). lia.
Qed.
Lemma pt_hex w ves fa u v : cuboid w ves -> fa < 6 ->
  exists xi, faToVolRef fa HEX8R [u; v] = Ok xi /\ length xi = 3 /\ refToPhy HEX8R ves xi = Ok (comb3 (nth 0 (faceVs HEX8R ves fa) []) (nth 1 (faceVs HEX8R ves fa) []) (nth 3 (faceVs HEX8R ves fa) []) u v).
Proof.
  intros (x0 & x1 & y0 & y1 & z0 & z1 & _ & _ & _ & ->) F. do 6 (destruct fa as [|fa]; [eexists; split; [reflexivity|split; [reflexivity|cbv; f_equal; f_equal; [|f_equal; [|f_equal]]; ring]]|]). lia.
Qed.

Lemma perm3 {A} (a b c x y z : A) : Permutation [a; b; c] [x; y; z] ->
  (x = a /\ y = b /\ z = c) \/ (x = b /\ y = c /\ z = a) \/ (x = c /\ y = a /\ z = b) \/ (x = a /\ y = c /\ z = b) \/ (x = b /\ y = a /\ z = c) \/ (x = c /\ y = b /\ z = a).
Proof.
  intros P. assert (I : In x [a; b; c]) by (eapply Permutation_in; [symmetry; exact P|left; reflexivity]). destruct I as [<-|[<-|[<-|[]]]].
  - apply Permutation_cons_inv in P. apply Permutation_length_2_inv in P as [[= -> ->]|[= -> ->]]; tauto.
  - assert (Q : Permutation [b; a; c] [b; y; z]) by (transitivity [a; b; c]; [constructor|exact P]). apply Permutation_cons_inv in Q. apply Permutation_length_2_inv in Q as [[= -> ->]|[= -> ->]]; tauto.
  - assert (Q : Permutation [c; a; b] [c; y; z]) by (transitivity [a; b; c]; [change [a; b; c] with ([a; b] ++ [c]); apply (Permutation_cons_append [a; b] c)|exact P]). apply Permutation_cons_inv in Q. apply Permutation_length_2_inv in Q as [[= -> ->]|[= -> ->]]; tauto.
Qed.

(** squares of positive numbers are not negative *)
Lemma mul_neg a b : (0 < a)%t -> (0 < b)%t -> (a * b < 0)%t -> False.
Proof. intros A B C. assert (X := of_mul _ _ _ _ _ _ _ _ _ _ OF _ _ A B). apply (lt_asym _ _ _ _ _ _ _ _ _ _ OF) in X. congruence. Qed.
Lemma mul_neg' a b : (a < 0)%t -> (b < 0)%t -> (a * b < 0)%t -> False.
Proof. intros A B C. apply (mul_neg (- a)%t (- b)%t); [rewrite (opp_neg _ _ _ _ _ _ _ _ _ _ OF); auto..|]. replace (- a * - b)%t with (a * b)%t by ring. auto. Qed.

(** two values in a list, e.g. the coordinates of a face in one dimension *)
Definition two (lo hi : T) (l : list T) := In lo l /\ In hi l /\ forall x, In x l -> x = lo \/ x = hi.
Lemma two_two lo hi lo' hi' l l' : Permutation l l' -> two lo hi l -> two lo' hi' l' -> (lo < hi)%t -> (lo' < hi')%t -> lo = lo' /\ hi = hi'.
Proof.
  intros P (A & B & C) (A' & B' & C') H H'. assert (X := C' _ (Permutation_in _ P A)). assert (Y := C' _ (Permutation_in _ P B)).
  destruct X as [X|X], Y as [Y|Y]; subst; auto; exfalso.
  - rewrite (of_irr _ _ _ _ _ _ _ _ _ _ OF) in H. discriminate.
  - apply (lt_asym _ _ _ _ _ _ _ _ _ _ OF) in H. congruence.
  - rewrite (of_irr _ _ _ _ _ _ _ _ _ _ OF) in H. discriminate.
Qed.
Lemma one_two c lo' hi' l l' : Permutation l l' -> (forall x, In x l -> x = c) -> two lo' hi' l' -> (lo' < hi')%t -> False.
Proof.
  intros P C (A & B & _) H. symmetry in P. assert (X := C _ (Permutation_in _ P A)). assert (Y := C _ (Permutation_in _ P B)). subst. rewrite (of_irr _ _ _ _ _ _ _ _ _ _ OF) in H. discriminate.
Qed.

Lemma sub_pos a b : (0 < b - a)%t -> (a < b)%t.
Proof. intros H. rewrite <- (add_lt _ _ _ _ _ _ _ _ _ _ OF _ _ a) in H. replace (0 + a)%t with a in H by ring. replace (b - a + a)%t with b in H by ring. exact H. Qed.

Definition share0 (t : ent) (L N : list (list T)) (fL fN : nat) : Prop :=
  Permutation (faceVs t L fL) (faceVs t N fN) /\
  forall i j, i < nVes t -> ~ In i (nth fL (faVeCc t) []) -> j < nVes t -> ~ In j (nth fN (faVeCc t) []) ->
    (side t (faceVs t L fL) (vert L i) * side t (faceVs t L fL) (vert N j) < 0)%t.

(** the points of the two elements coincide *)
Definition same (t : ent) (L N : list (list T)) (fL fN ve : nat) (pt : list T) : Prop :=
  exists q xL xN x, faToVolRef fL t pt = Ok xL /\ length xL = nDim t /\ faLocToFaNei t pt ve = Ok q /\ faToVolRef fN t q = Ok xN /\ length xN = nDim t /\ refToPhy t L xL = Ok x /\ refToPhy t N xN = Ok x.

(** vertex which is not part of a face *)
Definition offV (t : ent) (fa : nat) : nat :=
  match t with
  | TRIA3 => nth fa [2; 0; 1] 0
  | TET4 => nth fa [3; 2; 1; 0] 0
  | QUAD4R => nth fa [2; 0; 0; 1] 0
  | HEX8R => nth fa [4; 3; 0; 0; 1; 0] 0
  | _ => 0
  end.
Lemma offV_ok t fa : nDim t = 2 \/ nDim t = 3 -> fa < nFas t -> offV t fa < nVes t /\ ~ In (offV t fa) (nth fa (faVeCc t) []).
Proof. intros D F. destruct t; cbn in D; try lia; cbn [nFas] in F; do 6 (try (destruct fa as [|fa]; [cbn; lia|])); lia. Qed.

Lemma side_tria ves fa : elem TRIA3 ves -> fa < 3 -> side TRIA3 (faceVs TRIA3 ves fa) (vert ves (offV TRIA3 fa)) = area2 (vert ves 0) (vert ves 1) (vert ves 2).
Proof. intros E F. apply elem_tria in E as (a & b & c & d & e & f & ->). do 3 (destruct fa as [|fa]; [cbv; ring|]). lia. Qed.
Lemma side_tet ves fa : elem TET4 ves -> fa < 4 -> side TET4 (faceVs TET4 ves fa) (vert ves (offV TET4 fa)) = (- vol6 (vert ves 0) (vert ves 1) (vert ves 2) (vert ves 3))%t.
Proof. intros E F. apply elem_tet in E as (x0 & x1 & x2 & x3 & y0 & y1 & y2 & y3 & z0 & z1 & z2 & z3 & ->). do 4 (destruct fa as [|fa]; [cbv; ring|]). lia. Qed.

Lemma face2 t fa : nDim t = 2 -> fa < nFas t -> exists i j, nth fa (faVeCc t) [] = [i; j].
Proof. intros D F. destruct t; try discriminate; cbn [nFas] in F; do 4 (destruct fa as [|fa]; [try (cbn; eauto; fail); exfalso; lia|]); exfalso; lia. Qed.
Lemma face3 fa : fa < 4 -> exists i j k, nth fa (faVeCc TET4) [] = [i; j; k].
Proof. intros F. do 4 (destruct fa as [|fa]; [cbn; eauto|]); exfalso; lia. Qed.

Lemma side_rect ves fa : rect zero ves -> fa < 4 -> (0 < side QUAD4R (faceVs QUAD4R ves fa) (vert ves (offV QUAD4R fa)))%t.
Proof.
  intros (x0 & x1 & y0 & y1 & WX & WY & ->) F. assert (M := of_mul _ _ _ _ _ _ _ _ _ _ OF _ _ WX WY).
  do 4 (destruct fa as [|fa]; [match type of M with (0 < ?m)%t => match goal with |- (0 < ?r)%t => replace r with m by (cbv; ring); exact M end end|]). exfalso; lia.
Qed.

Lemma core2 t L N fL fN s : nDim t = 2 -> proper t L -> proper t N -> fL < nFas t -> fN < nFas t -> share0 t L N fL fN -> same t L N fL fN 0 [s].
Proof.
  intros D PL PN FL FN (P & S). assert (EL := proper_elem _ _ PL). assert (EN := proper_elem _ _ PN). destruct (offV_ok t fL) as (O1 & O2); auto. destruct (offV_ok t fN) as (O3 & O4); auto. specialize (S _ _ O1 O2 O3 O4).
  assert (POS : forall ves fa, proper t ves -> fa < nFas t -> (0 < side t (faceVs t ves fa) (vert ves (offV t fa)))%t).
  { intros ves fa PR F. destruct t; try discriminate D; [apply side_rect; auto|]. destruct PR as (E & PR). rewrite side_tria; auto. }
  assert (SL := POS _ _ PL FL). assert (SN := POS _ _ PN FN).
  destruct (pt_edge t L fL s D EL FL) as (xL & X1 & X2 & X3). destruct (pt_edge t N fN (1 - s)%t D EN FN) as (xN & Y1 & Y2 & Y3).
  assert (Q : faLocToFaNei t [s] 0 = Ok [(1 - s)%t]) by (destruct t; try discriminate D; reflexivity).
  exists [(1 - s)%t], xL, xN. eexists. rewrite D. repeat (split; [first [eassumption|reflexivity]|]). rewrite Y3. f_equal.
  unfold faceVs in *. destruct (face2 t fL D FL) as (i & j & FE). rewrite FE in *. destruct (face2 t fN D FN) as (k & l & FE'). rewrite FE' in *. cbn [map nth] in *.
  apply Permutation_length_2_inv in P as [[= H1 H2]|[= H1 H2]].
  - exfalso. rewrite H1, H2 in SN. exact (mul_neg _ _ SL SN S).
  - rewrite H1, H2. unfold comb2. cbn [map]. f_equal; [|f_equal]; ring.
Qed.

Lemma core_tet L N fL fN ve u v : proper TET4 L -> proper TET4 N -> fL < 4 -> fN < 4 -> share0 TET4 L N fL fN -> ve < 3 -> nth ve (faceVs TET4 N fN) [] = nth 0 (faceVs TET4 L fL) [] ->
  same TET4 L N fL fN ve [u; v].
Proof.
  intros (EL & PL) (EN & PN) FL FN (P & S) V VE. destruct (offV_ok TET4 fL) as (O1 & O2); auto. destruct (offV_ok TET4 fN) as (O3 & O4); auto. specialize (S _ _ O1 O2 O3 O4).
  assert (SL := side_tet L fL EL FL). assert (SN := side_tet N fN EN FN). rewrite SL in S.
  destruct (pt_tet L fL u v EL FL) as (xL & X1 & X2 & X3).
  assert (Q : exists q, faLocToFaNei TET4 [u; v] ve = Ok q /\ length q = 2). { destruct ve as [|[|[|]]]; try lia; eexists; split; reflexivity. }
  destruct Q as (q & Q & LQ). apply len2 in LQ as (u' & v' & ->). destruct (pt_tet N fN u' v' EN FN) as (xN & Y1 & Y2 & Y3).
  exists [u'; v'], xL, xN. eexists. repeat (split; [first [eassumption|reflexivity]|]). rewrite Y3. f_equal. clear X1 X2 X3 Y1 Y2 Y3.
  unfold faceVs in *. destruct (face3 fL FL) as (i & j & k & FE). rewrite FE in *. destruct (face3 fN FN) as (i' & j' & k' & FE'). rewrite FE' in *. cbn [map nth] in *.
  assert (NL : (- vol6 (vert L 0) (vert L 1) (vert L 2) (vert L 3) < 0)%t) by (rewrite (opp_pos _ _ _ _ _ _ _ _ _ _ OF); auto).
  assert (NN : (- vol6 (vert N 0) (vert N 1) (vert N 2) (vert N 3) < 0)%t) by (rewrite (opp_pos _ _ _ _ _ _ _ _ _ _ OF); auto).
  unfold side in *. cbn [nDim nth] in *. set (p := vert N (offV TET4 fN)) in *. set (a := vert L i) in *. set (b := vert L j) in *. set (c := vert L k) in *.
  assert (NZ : vol6 a b c (vert L (offV TET4 fL)) <> zero). { rewrite SL. intros Z. rewrite Z in NL. rewrite (of_irr _ _ _ _ _ _ _ _ _ _ OF) in NL. discriminate. }
  assert (AB : a <> b). { intros E. apply NZ. rewrite E. unfold vol6. ring. }
  assert (AC : a <> c). { intros E. apply NZ. rewrite E. unfold vol6. ring. }
  destruct (perm3 _ _ _ _ _ _ P) as [(H1 & H2 & H3)|[(H1 & H2 & H3)|[(H1 & H2 & H3)|[(H1 & H2 & H3)|[(H1 & H2 & H3)|(H1 & H2 & H3)]]]]]; rewrite H1, H2, H3 in *.
  1-3: exfalso; apply (mul_neg' _ _ NL NN); rewrite <- SN at 1; rewrite <- S; f_equal; f_equal; unfold vol6; ring.
  - destruct ve as [|[|[|]]]; try lia; try (exfalso; congruence). injection Q as <- <-. unfold comb3. cbn [map at1 nth]. f_equal; [|f_equal; [|f_equal]]; ring.
  - destruct ve as [|[|[|]]]; try lia; try (exfalso; congruence). injection Q as <- <-. unfold comb3. cbn [map at1 nth]. f_equal; [|f_equal; [|f_equal]]; ring.
  - destruct ve as [|[|[|]]]; try lia; try (exfalso; congruence). injection Q as <- <-. unfold comb3. cbn [map at1 nth]. f_equal; [|f_equal; [|f_equal]]; ring.
Qed.

(** hexes: dimension in which a face is constant *)
Definition faDim (fa : nat) : nat := nth fa [2; 1; 0; 1; 0; 2] 3.
Definition faHi (fa : nat) : bool := nth fa [false; false; true; true; false; true] false.

Lemma hex_coords x0 x1 y0 y1 z0 z1 fa d : fa < 6 -> d < 3 ->
  let ves := [[x0; x1; x1; x0; x0; x1; x1; x0]; [y0; y0; y1; y1; y0; y0; y1; y1]; [z0; z0; z0; z0; z1; z1; z1; z1]] in
  let lo := nth d [x0; y0; z0] zero in let hi := nth d [x1; y1; z1] zero in
  let l := map (fun p => nth d p zero) (faceVs HEX8R ves fa) in
  if d =? faDim fa then l = repeat (if faHi fa then hi else lo) 4 else two lo hi l.
Proof.
  intros F D. cbv zeta.
  do 6 (destruct fa as [|fa]; [do 3 (destruct d as [|d]; [cbn -[two]; first [reflexivity|unfold two; cbn; split; [tauto|split; [tauto|intros x I; repeat (destruct I as [I|I]; [subst; tauto|]); contradiction]]]|]); exfalso; lia|]). exfalso; lia.
Qed.

Lemma core_hex L N fL fN u v : proper HEX8R L -> proper HEX8R N -> fL < 6 -> fN < 6 -> share0 HEX8R L N fL fN -> same HEX8R L N fL fN 0 [u; v].
Proof.
  intros PL PN FL FN (P & S). destruct (offV_ok HEX8R fL) as (O1 & O2); auto. destruct (offV_ok HEX8R fN) as (O3 & O4); auto. specialize (S _ _ O1 O2 O3 O4). clear O1 O2 O3 O4.
  destruct (pt_hex _ L fL u v PL FL) as (xL & X1 & X2 & X3). destruct (pt_hex _ N fN v u PN FN) as (xN & Y1 & Y2 & Y3).
  exists [v; u], xL, xN. eexists. repeat (split; [first [eassumption|reflexivity]|]). rewrite Y3. f_equal. clear X1 X2 X3 Y1 Y2 Y3.
  destruct PL as (x0 & x1 & y0 & y1 & z0 & z1 & WX & WY & WZ & EL). destruct PN as (p0 & p1 & q0 & q1 & r0 & r1 & WP & WQ & WR & EN).
  assert (HX := sub_pos _ _ WX). assert (HY := sub_pos _ _ WY). assert (HZ := sub_pos _ _ WZ). assert (HP := sub_pos _ _ WP). assert (HQ := sub_pos _ _ WQ). assert (HR := sub_pos _ _ WR).
  assert (HL : forall d, d < 3 -> (nth d [x0; y0; z0] zero < nth d [x1; y1; z1] zero)%t) by (intros [|[|[|]]] D; auto; lia).
  assert (HN : forall d, d < 3 -> (nth d [p0; q0; r0] zero < nth d [p1; q1; r1] zero)%t) by (intros [|[|[|]]] D; auto; lia).
  assert (PD : forall d, Permutation (map (fun p => nth d p zero) (faceVs HEX8R L fL)) (map (fun p => nth d p zero) (faceVs HEX8R N fN))) by (intros d; apply Permutation_map; auto).
  assert (CL := fun d => hex_coords x0 x1 y0 y1 z0 z1 fL d FL). assert (CN := fun d => hex_coords p0 p1 q0 q1 r0 r1 fN d FN). cbv zeta in CL, CN. rewrite <- EL in CL. rewrite <- EN in CN.
  assert (DL : faDim fL < 3) by (do 6 (destruct fL as [|fL]; [cbn; lia|]); lia). assert (DN : faDim fN < 3) by (do 6 (destruct fN as [|fN]; [cbn; lia|]); lia).
  assert (DD : faDim fL = faDim fN).
  { destruct (Nat.eq_dec (faDim fL) (faDim fN)) as [|NE]; auto. exfalso. specialize (CL _ DL). specialize (CN _ DL). rewrite Nat.eqb_refl in CL. apply Nat.eqb_neq in NE. rewrite NE in CN.
    specialize (PD (faDim fL)). eapply one_two; [exact PD| |exact CN|apply HN; auto]. intros x I. rewrite CL in I. apply repeat_spec in I. exact I. }
  assert (CC : nth (faDim fL) (if faHi fL then [x1; y1; z1] else [x0; y0; z0]) zero = nth (faDim fL) (if faHi fN then [p1; q1; r1] else [p0; q0; r0]) zero).
  { specialize (CL _ DL). specialize (CN _ DL). specialize (PD (faDim fL)). rewrite Nat.eqb_refl in CL. rewrite DD, Nat.eqb_refl, <- DD in CN. rewrite CL, CN in PD.
    assert (I := Permutation_in _ PD (or_introl eq_refl)). apply repeat_spec in I. destruct (faHi fL), (faHi fN); exact I. }
  assert (CT : forall d, d < 3 -> d <> faDim fL -> nth d [x0; y0; z0] zero = nth d [p0; q0; r0] zero /\ nth d [x1; y1; z1] zero = nth d [p1; q1; r1] zero).
  { intros d D NE. specialize (CL _ D). specialize (CN _ D). rewrite <- DD in CN. apply Nat.eqb_neq in NE. rewrite NE in CL, CN. apply (two_two _ _ _ _ _ _ (PD d)); auto. }
  clear CL CN PD HL HN P DL DN. assert (C0 := CT 0 ltac:(lia)). assert (C1 := CT 1 ltac:(lia)). assert (C2 := CT 2 ltac:(lia)). clear CT. subst L N.
  assert (MM : forall a b c d, (0 < a)%t -> (0 < b)%t -> (0 < c)%t -> (0 < d)%t -> (a * b * c * (a * b * d) < 0)%t -> False).
  { intros a b c d A B C E H. eapply mul_neg; [| |exact H]; repeat apply (of_mul _ _ _ _ _ _ _ _ _ _ OF); auto. }
  do 6 (destruct fL as [|fL]; [do 6 (destruct fN as [|fN]; [try discriminate DD; cbn in C0, C1, C2, CC; try (destruct C0 as (<- & <-); [lia|]); try (destruct C1 as (<- & <-); [lia|]); try (destruct C2 as (<- & <-); [lia|]); 
    first [ solve [cbv; f_equal; [|f_equal; [|f_equal]]; rewrite ?CC; ring]
          | exfalso; apply (MM _ _ _ _ WX WY WZ WR); rewrite <- S; solve [f_equal; cbv; rewrite ?CC; ring]
          | exfalso; apply (MM _ _ _ _ WX WZ WY WQ); rewrite <- S; solve [f_equal; cbv; rewrite ?CC; ring]
          | exfalso; apply (MM _ _ _ _ WY WZ WX WP); rewrite <- S; solve [f_equal; cbv; rewrite ?CC; ring] ]|]); exfalso; lia|]).
  exfalso; lia.
Qed.

Lemma mapM_all {A B} (f : A -> res B) l : (forall a, In a l -> exists b, f a = Ok b) ->
  exists r, Comm.mapM f l = Ok r /\ length r = length l /\ forall i d d', i < length l -> f (nth i l d) = Ok (nth i r d').
Proof.
  induction l as [|a l IH]; intros H; [exists []; split; [reflexivity|split; [reflexivity|intros; cbn in *; lia]]|]. destruct (H a) as (b & E); [left; auto|]. destruct IH as (r & R1 & R2 & R3); [intros; apply H; right; auto|].
  exists (b :: r). cbn. rewrite E, R1. cbn. split; [reflexivity|]. split; [lia|]. intros [|i] d d' I; [exact E|apply R3; lia].
Qed.
Lemma nth_prod n m : forall k i j d, i < n -> j < m -> nth (i * m + j) (list_prod (seq k n) (seq 0 m)) d = (k + i, j).
Proof.
  induction n as [|n IH]; intros k i j d I J; [lia|]. cbn [seq list_prod]. destruct i as [|i].
  - rewrite app_nth1 by (rewrite map_length, seq_length; lia). cbn [Nat.mul Nat.add]. rewrite (nth_indep _ d (k, 0)) by (rewrite map_length, seq_length; lia). rewrite (map_nth (fun y => (k, y))). rewrite seq_nth by lia. f_equal; lia.
  - rewrite app_nth2 by (rewrite map_length, seq_length; nia). rewrite map_length, seq_length. replace (S i * m + j - m) with (i * m + j) by nia. rewrite IH by lia. f_equal. lia.
Qed.

Lemma toVol_ok t fa pt : nDim t = 2 \/ nDim t = 3 -> fa < nFas t -> exists x, faToVolRef fa t pt = Ok x.
Proof. intros D F. destruct t; cbn in D; try lia; cbn [nFas] in F; unfold Mapping.faToVolRef; (replace (fa <? _) with true by (symmetry; apply Nat.ltb_lt; auto)); cbn [check bind]; eauto. Qed.
Lemma toNei_ok t pt ve : nDim t = 2 \/ nDim t = 3 -> ve < nVeOpts t -> exists q, faLocToFaNei t pt ve = Ok q.
Proof. intros D F. destruct t; cbn in D; try lia; cbn [nVeOpts] in F; cbn [Mapping.faLocToFaNei]; eauto. destruct ve as [|[|[|]]]; eauto; lia. Qed.

Lemma core t L N fL fN ve pt : nDim t = 2 \/ nDim t = 3 -> proper t L -> proper t N -> fL < nFas t -> fN < nFas t -> share0 t L N fL fN -> ve < nVeOpts t ->
  (t = TET4 -> nth ve (faceVs t N fN) [] = nth 0 (faceVs t L fL) []) -> length pt = nDim t - 1 -> same t L N fL fN ve pt.
Proof.
  intros D PL PN FL FN SH VE V LP. destruct t; cbn in D; try lia; cbn in VE, LP.
  - destruct pt as [|s [|]]; try discriminate. replace ve with 0 by lia. apply core2; auto.
  - destruct pt as [|s [|]]; try discriminate. replace ve with 0 by lia. apply core2; auto.
  - apply len2 in LP as (u & v & ->). replace ve with 0 by lia. apply core_hex; auto.
  - apply len2 in LP as (u & v & ->). apply core_tet; auto.
Qed.

(** C60: the solver's quadrature points of a shared face, derived once by the element and once by the adjacent element, are pairwise the same physical points.
    [pts]: points of the face's rule, [o]: positions in the reference element, first those of the faces, then those of adjacent elements by face and orientation. *)
Theorem C60_coincide t tau L N fL fN ve pts qp : nDim t = 2 \/ nDim t = 3 -> proper t L -> proper t N -> length tau = nDim t -> fL < nFas t -> fN < nFas t -> share t tau L N fL fN ->
  ve < nVeOpts t -> (t = TET4 -> shift tau (nth ve (faceVs t N fN) []) = nth 0 (faceVs t L fL) []) ->
  Forall (fun pt => length pt = nDim t - 1) pts -> qp < length pts ->
  exists o x, facePts t pts = Ok o /\ length o = (nVeOpts t + 1) * nFas t /\
    refToPhy t N (nth qp (nth (nFas t + fN * nVeOpts t + ve) o []) []) = Ok x /\
    refToPhy t L (nth qp (nth fL o []) []) = Ok (shift tau x).
Proof.
  intros D PL PN LT FL FN (P & S) VE V LP Q. assert (EN := proper_elem _ _ PN).
  assert (SH : share0 t L (shiftV tau N) fL fN).
  { split; [rewrite faceVs_shift by auto; exact P|]. intros i j I1 I2 J1 J2. rewrite (vert_shift N); [apply S; auto| |eapply elem_vert; eauto]. destruct EN as (X & _). lia. }
  assert (LF : forall t fa ve, nDim t = 2 \/ nDim t = 3 -> fa < nFas t -> ve < nVeOpts t -> ve < length (nth fa (faVeCc t) [])).
  { clear. intros t fa ve D F VE. destruct t; cbn in D; try lia; cbn [nFas nVeOpts] in F, VE; do 6 (destruct fa as [|fa]; [cbn; lia|]); cbn; lia. }
  assert (V' : t = TET4 -> nth ve (faceVs t (shiftV tau N) fN) [] = nth 0 (faceVs t L fL) []).
  { intros X. rewrite <- (V X). rewrite faceVs_shift by auto. rewrite (nth_indep _ [] (shift tau [])); [apply map_nth|]. unfold faceVs. rewrite !map_length. auto. }
  assert (LPQ : length (nth qp pts []) = nDim t - 1) by (rewrite Forall_forall in LP; apply LP, nth_In, Q).
  destruct (core t L (shiftV tau N) fL fN ve (nth qp pts []) D PL (proper_shift _ _ _ PN LT) FL FN SH VE V' LPQ) as (q & xL & xN & y & K1 & K2 & K3 & K4 & K5 & K6 & K7).
  destruct (phy_shift t N tau xN y EN LT K5 K7) as (x & K8 & K9).
  destruct (mapM_all (fun fa => Comm.mapM (faToVolRef fa t) pts) (seq 0 (nFas t))) as (loc & A1 & A2 & A3).
  { intros fa I. apply in_seq in I. destruct (mapM_all (faToVolRef fa t) pts) as (r & R & _); eauto. intros a _. apply toVol_ok; auto; lia. }
  destruct (mapM_all (fun fv => Comm.mapM (fun pt => q <- faLocToFaNei t pt (snd fv);; faToVolRef (fst fv) t q) pts) (list_prod (seq 0 (nFas t)) (seq 0 (nVeOpts t)))) as (nei & B1 & B2 & B3).
  { intros (fa & v) I. apply in_prod_iff in I as (I & J). apply in_seq in I. apply in_seq in J. cbn [fst snd].
    destruct (mapM_all (fun pt => q <- faLocToFaNei t pt v;; faToVolRef fa t q) pts) as (r & R & _); eauto. intros a _. destruct (toNei_ok t a v) as (b & ->); auto; [lia|]. apply toVol_ok; auto; lia. }
  exists (loc ++ nei), x. rewrite seq_length in A2, A3. rewrite prod_length, !seq_length in B2, B3. split; [|split; [|split]].
  - unfold Mapping.facePts. rewrite A1. cbn [bind]. rewrite B1. reflexivity.
  - rewrite app_length, A2, B2. lia.
  - rewrite app_nth2 by lia. replace (nFas t + fN * nVeOpts t + ve - length loc) with (fN * nVeOpts t + ve) by lia.
    assert (BI : fN * nVeOpts t + ve < nFas t * nVeOpts t) by nia. specialize (B3 _ (0, 0) [] BI). rewrite nth_prod in B3 by auto. cbn [fst snd Nat.add] in B3.
    destruct (mapM_all (fun pt => q <- faLocToFaNei t pt ve;; faToVolRef fN t q) pts) as (r & R1 & R2 & R3). { intros a _. destruct (toNei_ok t a ve) as (b & ->); auto. apply toVol_ok; auto. }
    rewrite R1 in B3. injection B3 as <-. specialize (R3 qp [] [] Q). rewrite K3 in R3. cbn [bind] in R3. rewrite K4 in R3. injection R3 as <-. exact K8.
  - rewrite app_nth1 by lia. specialize (A3 fL 0 [] FL). rewrite seq_nth in A3 by auto. cbn [Nat.add] in A3.
    destruct (mapM_all (faToVolRef fL t) pts) as (r & R1 & R2 & R3). { intros a _. apply toVol_ok; auto. }
    rewrite R1 in A3. injection A3 as <-. specialize (R3 qp [] [] Q). rewrite K1 in R3. injection R3 as <-. rewrite K6, K9. reflexivity.
Qed.

(** lines: the right point of an element is the left point of its right neighbour and vice versa *)
Theorem C60_line tau L N fL : elem LINE L -> elem LINE N -> fL < 2 ->
  vert L fL = shift [tau] (vert N (1 - fL)) ->
  exists x, refToPhy LINE N (nth 0 (nth (2 + fL) (facePtsLine zero one) []) []) = Ok x /\ refToPhy LINE L (nth 0 (nth fL (facePtsLine zero one) []) []) = Ok (shift [tau] x).
Proof.
  intros EL EN F V. apply elem_line in EL as (a & b & ->). apply elem_line in EN as (c & d & ->). destruct fL as [|[|]]; try lia; cbv in V; injection V as ->; eexists; split; try reflexivity; cbv; f_equal; f_equal; ring.
Qed.

End Map.

Print Assumptions C59_ref_phy_ref.
Print Assumptions C59_phy_ref_phy.
Print Assumptions C59_reject.
Print Assumptions C59_vertices.
Print Assumptions C59_jacobian.
Print Assumptions C59_faces.
Print Assumptions C60_coincide.
Print Assumptions C60_line.

(** two tetrahedrons with different orientations of their shared face; the mesh tolerance is 1/1000 *)
Definition qtol : Qc := Q2Qc (1 # 1000).
Definition exTetL : list (list Qc) := [[qi 0; qi 2; qi 0; qi 0]; [qi 0; qi 0; qi 3; qi 0]; [qi 0; qi 0; qi 1; qi 4]].
Definition exTetN : list (list Qc) := [[qi 0; qi 2; qi 5; qi 0]; [qi 3; qi 0; qi 5; qi 0]; [qi 1; qi 0; qi 5; qi 4]].
Definition exTri : list (list Qc) := [[qi 1; qi 4; qi 2]; [qi 0; qi 1; qi 5]].
Definition exQuadL : list (list Qc) := [[qi 0; qi 2; qi 2; qi 0]; [qi 1; qi 1; qi 4; qi 4]].
Definition exQuadN : list (list Qc) := [[qi 2; qi 3; qi 3; qi 2]; [qi 1; qi 1; qi 4; qi 4]].
Definition exHexL : list (list Qc) := [[qi 0; qi 2; qi 2; qi 0; qi 0; qi 2; qi 2; qi 0]; [qi 1; qi 1; qi 4; qi 4; qi 1; qi 1; qi 4; qi 4]; [qi 0; qi 0; qi 0; qi 0; qi 1; qi 1; qi 1; qi 1]].
(** periodic: the upper face of the hexahedral is connected to its own lower face *)
Example C59_ex : regular 0%Qc Qcplus Qcminus Qcmult qcltb qtol TET4 exTetL /\ regular 0%Qc Qcplus Qcminus Qcmult qcltb qtol TRIA3 exTri /\ regular 0%Qc Qcplus Qcminus Qcmult qcltb qtol QUAD4R exQuadL /\ regular 0%Qc Qcplus Qcminus Qcmult qcltb qtol HEX8R exHexL.
Proof.
  repeat split; try (repeat constructor; fail); try (vm_compute; congruence).
  - exists (qi 0), (qi 2), (qi 1), (qi 4). repeat split.
  - exists (qi 0), (qi 2), (qi 1), (qi 4), (qi 0), (qi 1). repeat split.
Qed.

Notation qshare := (share 0%Qc Qcplus Qcminus Qcmult qcltb).
Notation qproper := (proper 0%Qc Qcplus Qcminus Qcmult qcltb).
Ltac alldis := intros i j I1 I2 J1 J2; cbn [nVes] in *; repeat (destruct i as [|i]; [repeat (destruct j as [|j]; [first [vm_compute; reflexivity|exfalso; apply I2; cbn; tauto|exfalso; apply J2; cbn; tauto]|try (exfalso; lia)])|try (exfalso; lia)]).

Example C60_ex_tet : qproper TET4 exTetL /\ qproper TET4 exTetN /\ qshare TET4 [qi 0; qi 0; qi 0] exTetL exTetN 3 1 /\
  shift Qcplus [qi 0; qi 0; qi 0] (nth 1 (faceVs 0%Qc TET4 exTetN 1) []) = nth 0 (faceVs 0%Qc TET4 exTetL 3) [].
Proof.
  split; [|split; [|split; [split|]]].
  - split; [split; [reflexivity|unfold exTetL; repeat constructor]|reflexivity].
  - split; [split; [reflexivity|unfold exTetN; repeat constructor]|vm_compute; reflexivity].
  - match goal with |- Permutation ?a ?b => let x := eval vm_compute in a in let y := eval vm_compute in b in change (Permutation x y) end.
    apply perm_swap.
  - alldis.
  - vm_compute. reflexivity.
Qed.

(** the quadrature point (1/4, 1/3) of the shared face *)
Example C60_ex_tet_pt : exists o x, facePts 0%Qc 1%Qc Qcplus Qcminus Qcmult TET4 [[Q2Qc (1 # 4); Q2Qc (1 # 3)]] = Ok o /\ length o = 16 /\
  refToPhy 0%Qc 1%Qc Qcplus Qcminus Qcmult TET4 exTetN (nth 0 (nth (4 + 1 * 3 + 1) o []) []) = Ok x /\
  refToPhy 0%Qc 1%Qc Qcplus Qcminus Qcmult TET4 exTetL (nth 0 (nth 3 o []) []) = Ok (shift Qcplus [qi 0; qi 0; qi 0] x).
Proof.
  destruct C60_ex_tet as (H1 & H2 & H3 & H4).
  exact (C60_coincide _ _ _ _ _ _ _ _ _ _ Qc_ofield TET4 [qi 0; qi 0; qi 0] exTetL exTetN 3 1 1 [[Q2Qc (1 # 4); Q2Qc (1 # 3)]] 0 (or_intror eq_refl) H1 H2 eq_refl ltac:(cbn; lia) ltac:(cbn; lia) H3 ltac:(cbn; lia) (fun _ => H4) ltac:(repeat constructor) ltac:(cbn; lia)).
Qed.

(** a hexahedral element which is its own neighbour: periodic boundaries in z-direction *)
Example C60_ex_hex : qproper HEX8R exHexL /\ qshare HEX8R [qi 0; qi 0; qi 1] exHexL exHexL 5 0.
Proof.
  split; [exists (qi 0), (qi 2), (qi 1), (qi 4), (qi 0), (qi 1); repeat split|split].
  - match goal with |- Permutation ?a ?b => let x := eval vm_compute in a in let y := eval vm_compute in b in change (Permutation x y) end.
    apply perm_skip. eapply perm_trans; [apply perm_swap|]. eapply perm_trans; [apply perm_skip, perm_swap|]. apply perm_swap.
  - alldis.
Qed.

(** two rectangles *)
Example C60_ex_quad : qproper QUAD4R exQuadL /\ qproper QUAD4R exQuadN /\ qshare QUAD4R [qi 0; qi 0] exQuadL exQuadN 1 3.
Proof.
  split; [exists (qi 0), (qi 2), (qi 1), (qi 4); repeat split|split; [exists (qi 2), (qi 3), (qi 1), (qi 4); repeat split|split]].
  - match goal with |- Permutation ?a ?b => let x := eval vm_compute in a in let y := eval vm_compute in b in change (Permutation x y) end. apply perm_swap.
  - alldis.
Qed.
