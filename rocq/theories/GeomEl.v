(** Geometry of single elements over the real numbers: faces, volume, diameter. *)
From Coq Require Import List Arith Bool Lia Reals Lra Permutation.
From Verif Require Import Util MeshConn MeshSpec GeomV Props_FwaveR GeomProofs.
Import ListNotations.
Open Scope R_scope.

Notation volume := (GeomV.volume 0 1 Rplus Rminus Rmult Rdiv Ropp sqrt rltb reqb).
Notation normal := (GeomV.normal 0 1 Rplus Rminus Rmult Rdiv Ropp sqrt rltb).
Notation tangents := (GeomV.tangents 0 1 Rplus Rminus Rmult Rdiv Ropp sqrt rltb).
Notation inDiameter := (GeomV.inDiameter 0 1 Rplus Rminus Rmult Rdiv Ropp sqrt rltb reqb).

(** Elements with the vertices in the order of the reference element: counter-clockwise triangles, axis-aligned rectangles, positively oriented
    tetrahedra, axis-aligned boxes.  Two-dimensional elements are in the plane z = 0. *)
Definition elemR (ty : elType) (p : list V) : Prop :=
  match ty with
  | TRIA3 => exists ax ay bx bY cx cy, p = [(ax, ay, 0); (bx, bY, 0); (cx, cy, 0)] /\ 0 < (bx - ax) * (cy - ay) - (cx - ax) * (bY - ay)
  | QUAD4R => exists x0 x1 y0 y1, p = [(x0, y0, 0); (x1, y0, 0); (x1, y1, 0); (x0, y1, 0)] /\ x0 < x1 /\ y0 < y1
  | TET4 => exists a b c d, p = [a; b; c; d] /\ 0 < inner (minus b a) (cprod (minus c a) (minus d a))
  | HEX8R => exists x0 x1 y0 y1 z0 z1,
      p = [(x0, y0, z0); (x1, y0, z0); (x1, y1, z0); (x0, y1, z0); (x0, y0, z1); (x1, y0, z1); (x1, y1, z1); (x0, y1, z1)] /\ x0 < x1 /\ y0 < y1 /\ z0 < z1
  end.

Definition pt0 : V := (0, 0, 0).
Definition row (ty : elType) (i : nat) : list nat := nth i (refFaces ty) [].
(** vertex j of local face i *)
Definition fv (ty : elType) (p : list V) (i j : nat) : V := nth (nth j (row ty i) 0%nat) p pt0.
Definition facePt (ty : elType) (p : list V) (i : nat) : list V := map (fun j => nth j p pt0) (row ty i).

(** two directions of the face and the outward vector *)
Definition dirU (ty : elType) (p : list V) (i : nat) : V := minus (fv ty p i 1) (fv ty p i 0).
Definition dirW (ty : elType) (p : list V) (i : nat) : V :=
  match ty with TRIA3 | QUAD4R => ez | _ => minus (fv ty p i 2) (fv ty p i 0) end.
Definition outV (ty : elType) (p : list V) (i : nat) : V := cprod (dirU ty p i) (dirW ty p i).

Definition is2d (ty : elType) : bool := match ty with TRIA3 | QUAD4R => true | _ => false end.

Ltac cases n i H := do n (destruct i as [|i]; [|]); try (exfalso; cbn in H; lia).

Ltac ev := cbv [outV dirU dirW fv row refFaces nth minus cprod inner scale px py pz ez fst snd pt0] in *.

Lemma outV_out ty p i j : elemR ty p -> (i < nElFas ty)%nat -> (j < nElVes ty)%nat -> ~ In j (row ty i) ->
  inner (outV ty p i) (minus (nth j p pt0) (fv ty p i 0)) < 0.
Proof.
  intros E Hi Hj Hn. destruct ty; cbn [nElFas nElVes] in *.
  - destruct E as (x0 & x1 & y0 & y1 & -> & H1 & H2). do 4 (destruct i as [|i]; [do 4 (destruct j as [|j]; [first [exfalso; apply Hn; cbn; tauto | ev; nra]|]); exfalso; lia|]). exfalso; lia.
  - destruct E as (ax & ay & bx & bY & cx & cy & -> & H). do 3 (destruct i as [|i]; [do 3 (destruct j as [|j]; [first [exfalso; apply Hn; cbn; tauto | ev; lra]|]); exfalso; lia|]). exfalso; lia.
  - destruct E as (x0 & x1 & y0 & y1 & z0 & z1 & -> & H1 & H2 & H3).
    assert (P : 0 < (x1 - x0) * (y1 - y0) * (z1 - z0)) by (repeat apply Rmult_lt_0_compat; lra).
    do 6 (destruct i as [|i]; [do 8 (destruct j as [|j]; [first [exfalso; apply Hn; cbn; tauto | ev; lra]|]); exfalso; lia|]). exfalso; lia.
  - destruct E as (a & b & c & d & -> & H). destruct a as [[? ?] ?], b as [[? ?] ?], c as [[? ?] ?], d as [[? ?] ?].
    do 4 (destruct i as [|i]; [do 4 (destruct j as [|j]; [first [exfalso; apply Hn; cbn; tauto | ev; lra]|]); exfalso; lia|]). exfalso; lia.
Qed.

Lemma outV_in ty p i j : elemR ty p -> (i < nElFas ty)%nat -> In j (row ty i) -> inner (outV ty p i) (minus (nth j p pt0) (fv ty p i 0)) = 0.
Proof.
  intros E Hi Hj. destruct ty; cbn [nElFas] in *.
  - destruct E as (x0 & x1 & y0 & y1 & -> & _). do 4 (destruct i as [|i]; [cbn in Hj; decompose [or] Hj; try contradiction; subst j; ev; ring|]). exfalso; lia.
  - destruct E as (ax & ay & bx & bY & cx & cy & -> & _). do 3 (destruct i as [|i]; [cbn in Hj; decompose [or] Hj; try contradiction; subst j; ev; ring|]). exfalso; lia.
  - destruct E as (x0 & x1 & y0 & y1 & z0 & z1 & -> & _). do 6 (destruct i as [|i]; [cbn in Hj; decompose [or] Hj; try contradiction; subst j; ev; ring|]). exfalso; lia.
  - destruct E as (a & b & c & d & -> & _). destruct a as [[? ?] ?], b as [[? ?] ?], c as [[? ?] ?], d as [[? ?] ?].
    do 4 (destruct i as [|i]; [cbn in Hj; decompose [or] Hj; try contradiction; subst j; ev; ring|]). exfalso; lia.
Qed.

(** a vertex which is not a vertex of the face *)
Definition opp (ty : elType) (i : nat) : nat :=
  match ty with
  | QUAD4R => nth i [2; 0; 0; 1]%nat 0%nat
  | TRIA3 => nth i [2; 0; 1]%nat 0%nat
  | HEX8R => nth i [4; 2; 0; 0; 1; 0]%nat 0%nat
  | TET4 => nth i [3; 2; 1; 0]%nat 0%nat
  end.
Lemma opp_ok ty i : (i < nElFas ty)%nat -> (opp ty i < nElVes ty)%nat /\ ~ In (opp ty i) (row ty i).
Proof. intros H. destruct ty; cbn [nElFas] in H; do 6 (destruct i as [|i]; [first [solve [cbn; split; [lia|intros F; decompose [or] F; (lia || contradiction)]] | exfalso; lia]|]); exfalso; lia. Qed.

Lemma outV_pos ty p i : elemR ty p -> (i < nElFas ty)%nat -> 0 < inner (outV ty p i) (outV ty p i).
Proof.
  intros E Hi. destruct (opp_ok ty i Hi) as (H1 & H2). assert (H := outV_out ty p i _ E Hi H1 H2). assert (X := inner_pos (outV ty p i)). destruct X as [X|X]; auto. exfalso.
  symmetry in X. apply inner_zero in X. rewrite X in H. vec. lra.
Qed.

(** the face's vertices in arbitrary order *)
Lemma face_cross ty p i k : elemR ty p -> (i < nElFas ty)%nat -> Permutation (facePt ty p i) k ->
  exists r, match ty with
  | TRIA3 | QUAD4R => exists a b, k = a :: b :: r /\ pz a = pz b /\ (cprod (minus b a) ez = outV ty p i \/ cprod (minus b a) ez = scale (-1) (outV ty p i))
  | _ => exists a b c, k = a :: b :: c :: r /\ (cprod (minus b a) (minus c a) = outV ty p i \/ cprod (minus b a) (minus c a) = scale (-1) (outV ty p i))
  end.
Proof.
  intros E Hi P. apply perms_in in P. destruct ty; cbn [nElFas] in *.
  - destruct E as (x0 & x1 & y0 & y1 & -> & _).
    do 4 (destruct i as [|i]; [cbn in P; decompose [or] P; try contradiction; subst k; eexists; eexists; eexists; (split; [reflexivity|]); (split; [reflexivity|]); ev; first [solve [left; apply V_eq; ring] | right; apply V_eq; ring]|]). exfalso; lia.
  - destruct E as (ax & ay & bx & bY & cx & cy & -> & _).
    do 3 (destruct i as [|i]; [cbn in P; decompose [or] P; try contradiction; subst k; eexists; eexists; eexists; (split; [reflexivity|]); (split; [reflexivity|]); ev; first [solve [left; apply V_eq; ring] | right; apply V_eq; ring]|]). exfalso; lia.
  - destruct E as (x0 & x1 & y0 & y1 & z0 & z1 & -> & _).
    do 6 (destruct i as [|i]; [cbn in P; decompose [or] P; try contradiction; subst k; eexists; eexists; eexists; eexists; (split; [reflexivity|]); ev; first [solve [left; apply V_eq; ring] | right; apply V_eq; ring]|]). exfalso; lia.
  - destruct E as (a & b & c & d & -> & _). destruct a as [[? ?] ?], b as [[? ?] ?], c as [[? ?] ?], d as [[? ?] ?].
    do 4 (destruct i as [|i]; [cbn in P; decompose [or] P; try contradiction; subst k; eexists; eexists; eexists; eexists; (split; [reflexivity|]); ev; first [solve [left; apply V_eq; ring] | right; apply V_eq; ring]|]). exfalso; lia.
Qed.

(** factor between the area of a face and the length of [outV] *)
Definition fac (ty : elType) : R := match ty with TET4 => / 2 | _ => 1 end.

Definition unitV (ty : elType) (p : list V) (i : nat) : V := scale (/ len (outV ty p i)) (outV ty p i).

Lemma face_area ty p i k : elemR ty p -> (i < nElFas ty)%nat -> Permutation (facePt ty p i) k ->
  volume (faOf ty) k = Ok (fac ty * len (outV ty p i)).
Proof.
  intros E Hi P. destruct (face_cross ty p i k E Hi P) as (r & H). destruct ty; cbn [faOf GeomV.volume fac].
  - destruct H as (a & b & -> & Hz & H). rewrite (line_area a b _ r Hz H). f_equal. ring.
  - destruct H as (a & b & -> & Hz & H). rewrite (line_area a b _ r Hz H). f_equal. ring.
  - destruct H as (a & b & c & -> & H). unfold GeomV.quadArea. rewrite (tria_area a b c _ r H). unfold two. f_equal. field.
  - destruct H as (a & b & c & -> & H). rewrite (tria_area a b c _ r H). f_equal. field.
Qed.

(** normals and tangents: right-handed systems *)
Definition frame (ty : elType) (n t0 t1 : V) : Prop :=
  inner n n = 1 /\ inner t0 t0 = 1 /\ inner n t0 = 0 /\
  if is2d ty then t0 = cprod ez n /\ t1 = (0, 0, 0) else inner t1 t1 = 1 /\ inner n t1 = 0 /\ inner t0 t1 = 0 /\ cprod t0 t1 = n.

Lemma face_frame ty p i k np : elemR ty p -> (i < nElFas ty)%nat -> Permutation (facePt ty p i) k ->
  (exists j, (j < nElVes ty)%nat /\ ~ In j (row ty i) /\ np = nth j p pt0) ->
  exists t0 t1, normal (faOf ty) k np = Ok (unitV ty p i) /\ tangents (faOf ty) k np = Ok (t0, t1) /\ frame ty (unitV ty p i) t0 t1.
Proof.
  intros E Hi P (j & Hj & Nj & ->). destruct (face_cross ty p i k E Hi P) as (r & H). assert (HN := outV_pos ty p i E Hi). assert (U := unit_inv _ HN).
  assert (A : forall a, In a k -> inner (outV ty p i) (minus (nth j p pt0) a) < 0).
  { intros a Ia. apply (Permutation_in a (Permutation_sym P)) in Ia. unfold facePt in Ia. apply in_map_iff in Ia as (j' & <- & Ij'). assert (X := outV_in ty p i j' E Hi Ij'). assert (Y := outV_out ty p i j E Hi Hj Nj).
    replace (inner (outV ty p i) (minus (nth j p pt0) (nth j' p pt0))) with (inner (outV ty p i) (minus (nth j p pt0) (fv ty p i 0)) - inner (outV ty p i) (minus (nth j' p pt0) (fv ty p i 0))); [lra|].
    clear. destruct (outV ty p i) as [[? ?] ?], (nth j p pt0) as [[? ?] ?], (nth j' p pt0) as [[? ?] ?], (fv ty p i 0) as [[? ?] ?]. vec. ring. }
  assert (two_d : is2d ty = true -> pz (outV ty p i) = 0) by (destruct ty; intros D; try discriminate D; unfold outV, dirW, ez; vec; ring).
  destruct ty; cbn [faOf GeomV.normal GeomV.tangents].
  1, 2: destruct H as (a & b & -> & Hz & H); assert (X := A a ltac:(left; reflexivity)); destruct (line_key a b _ _ r H HN X) as (K1 & K2); rewrite K1, K2; eexists; eexists; (split; [reflexivity|]); (split; [reflexivity|]);
    specialize (two_d eq_refl); unfold frame, unitV; cbn [is2d];
    (split; [exact U|]); (split; [|split; [|split; [unfold ez; reflexivity|reflexivity]]]).
  1, 3: rewrite <- U; revert two_d; clear; generalize (/ len (outV QUAD4R p i)), (/ len (outV TRIA3 p i)); generalize (outV QUAD4R p i), (outV TRIA3 p i); intros [[x y] z] [[x' y'] z'] ? ? Z; unfold ez; vec; subst; ring.
  1, 2: clear; generalize (/ len (outV QUAD4R p i)), (/ len (outV TRIA3 p i)); generalize (outV QUAD4R p i), (outV TRIA3 p i); intros [[x y] z] [[x' y'] z'] ? ?; unfold ez; vec; ring.
  1, 2: destruct H as (a & b & c & -> & H); assert (X := A a ltac:(left; reflexivity)); destruct (tria_key a b c _ _ r H HN X) as (t0 & t1 & K & U0 & U1 & O & C); exists t0, t1;
    unfold GeomV.triaNormal; rewrite K; cbn [fst snd]; change (GeomV.cross Rminus Rmult t0 t1) with (cprod t0 t1); rewrite C; (split; [reflexivity|]); (split; [reflexivity|]);
    unfold frame, unitV; cbn [is2d]; (split; [exact U|]); (split; [exact U0|]); rewrite <- C; (split; [|split; [exact U1|split; [|split; [exact O|reflexivity]]]]);
    clear; destruct t0 as [[? ?] ?], t1 as [[? ?] ?]; vec; ring.
Qed.

(** ** Specification: outward normals *)

(** [n] is an outward unit normal of the face: orthogonal to the face, and all vertices of the element are behind the face *)
Definition outward (ty : elType) (el face : list V) (n : V) : Prop :=
  inner n n = 1 /\ (is2d ty = true -> pz n = 0) /\
  (forall v w, In v face -> In w face -> inner n (minus v w) = 0) /\ (forall v w, In v el -> In w face -> inner n (minus v w) <= 0).

Lemma elemR_len ty p : elemR ty p -> length p = nElVes ty.
Proof. destruct ty; intros H; unfold elemR in H; repeat match type of H with ex _ => destruct H as (? & H) end; destruct H as (-> & _); reflexivity. Qed.

Lemma row_lt ty i j : (i < nElFas ty)%nat -> In j (row ty i) -> (j < nElVes ty)%nat.
Proof. intros Hi Hj. destruct ty; cbn [nElFas nElVes] in *; do 6 (destruct i as [|i]; [first [solve [cbn in Hj; decompose [or] Hj; try contradiction; subst; lia] | exfalso; lia]|]); exfalso; lia. Qed.
Lemma row_len ty i : (i < nElFas ty)%nat -> length (row ty i) = nFaVes ty.
Proof. intros Hi. destruct ty; cbn [nElFas nFaVes] in *; do 6 (destruct i as [|i]; [first [reflexivity | exfalso; lia]|]); exfalso; lia. Qed.

Lemma inner_diff (N0 a b c : V) : inner N0 (minus a b) = inner N0 (minus a c) - inner N0 (minus b c).
Proof. destruct N0 as [[? ?] ?], a as [[? ?] ?], b as [[? ?] ?], c as [[? ?] ?]. vec. ring. Qed.

Lemma outV_le ty p i v w : elemR ty p -> (i < nElFas ty)%nat -> In v p -> In w (facePt ty p i) -> inner (outV ty p i) (minus v w) <= 0.
Proof.
  intros E Hi Hv Hw. apply in_map_iff in Hw as (j & <- & Hj). apply (In_nth _ _ pt0) in Hv as (j' & Hj' & <-). rewrite (elemR_len _ _ E) in Hj'.
  rewrite (inner_diff _ _ _ (fv ty p i 0)). rewrite (outV_in ty p i j E Hi Hj). destruct (in_dec Nat.eq_dec j' (row ty i)) as [I|I].
  - rewrite (outV_in ty p i j' E Hi I). lra.
  - assert (X := outV_out ty p i j' E Hi Hj' I). lra.
Qed.

Lemma outV_face ty p i v w : elemR ty p -> (i < nElFas ty)%nat -> In v (facePt ty p i) -> In w (facePt ty p i) -> inner (outV ty p i) (minus v w) = 0.
Proof.
  intros E Hi Hv Hw. apply in_map_iff in Hw as (j & <- & Hj). apply in_map_iff in Hv as (j' & <- & Hj').
  rewrite (inner_diff _ _ _ (fv ty p i 0)). rewrite (outV_in ty p i j E Hi Hj), (outV_in ty p i j' E Hi Hj'). ring.
Qed.

Lemma inner_scale s a b : inner (scale s a) b = s * inner a b.
Proof. destruct a as [[? ?] ?], b as [[? ?] ?]. vec. ring. Qed.

Lemma unitV_outward ty p i : elemR ty p -> (i < nElFas ty)%nat -> outward ty p (facePt ty p i) (unitV ty p i).
Proof.
  intros E Hi. assert (HN := outV_pos ty p i E Hi). assert (IP := Rinv_0_lt_compat _ (len_pos _ HN)). split; [apply unit_inv; auto|]. split; [|split].
  - unfold unitV. intros D. assert (Z : pz (outV ty p i) = 0) by (destruct ty; try discriminate D; unfold outV, dirW, ez; vec; ring). destruct (outV ty p i) as [[? ?] ?]. vec. subst. ring.
  - intros v w Hv Hw. unfold unitV. rewrite inner_scale, (outV_face ty p i v w E Hi Hv Hw). ring.
  - intros v w Hv Hw. unfold unitV. rewrite inner_scale. assert (X := outV_le ty p i v w E Hi Hv Hw). set (s := / len (outV ty p i)) in *. set (y := inner (outV ty p i) (minus v w)) in *. clearbody s y. clear -IP X. nra.
Qed.

Lemma fv_in ty p i j : (j < length (row ty i))%nat -> In (fv ty p i j) (facePt ty p i).
Proof. intros H. unfold fv, facePt. apply (in_map (fun j => nth j p pt0)). apply nth_In. exact H. Qed.

(** the outward normal is unique *)
Lemma outward_is ty p i n : elemR ty p -> (i < nElFas ty)%nat -> outward ty p (facePt ty p i) n -> n = unitV ty p i.
Proof.
  intros E Hi (H1 & H2 & H3 & H4). destruct (opp_ok ty i Hi) as (O1 & O2). assert (L := row_len ty i Hi).
  assert (F : In (fv ty p i 0) (facePt ty p i)) by (apply fv_in; rewrite L; destruct ty; cbn; lia).
  apply (outward_unique (dirU ty p i) (dirW ty p i) n (outV ty p i) (minus (nth (opp ty i) p pt0) (fv ty p i 0))); auto.
  - apply outV_pos; auto.
  - apply H3; [apply fv_in; rewrite L; destruct ty; cbn; lia|exact F].
  - unfold dirW. destruct ty; try (apply H3; [apply fv_in; rewrite L; cbn; lia|exact F]); specialize (H2 eq_refl); destruct n as [[? ?] ?]; unfold ez; vec; subst; ring.
  - apply H4; auto. apply nth_In. rewrite (elemR_len _ _ E). exact O1.
  - apply outV_out; auto.
Qed.

(** ** Closed surface and volume *)
Definition vsum (l : list V) : V := fold_right plus (0, 0, 0) l.

Lemma outV_sum ty p : elemR ty p -> vsum (map (outV ty p) (seq 0 (nElFas ty))) = (0, 0, 0).
Proof.
  intros E. destruct ty; cbn [nElFas seq map vsum fold_right].
  - destruct E as (x0 & x1 & y0 & y1 & -> & _). ev. cbv [plus px py pz fst snd]. apply V_eq; ring.
  - destruct E as (ax & ay & bx & bY & cx & cy & -> & _). ev. cbv [plus px py pz fst snd]. apply V_eq; ring.
  - destruct E as (x0 & x1 & y0 & y1 & z0 & z1 & -> & _). ev. cbv [plus px py pz fst snd]. apply V_eq; ring.
  - destruct E as (a & b & c & d & -> & _). destruct a as [[? ?] ?], b as [[? ?] ?], c as [[? ?] ?], d as [[? ?] ?]. ev. cbv [plus px py pz fst snd]. apply V_eq; ring.
Qed.

(** volume *)
Definition volR (ty : elType) (p : list V) : R :=
  let P i := nth i p pt0 in
  match ty with
  | TRIA3 => inner (outV ty p 0) (minus (P 0%nat) (P 2%nat)) / 2
  | QUAD4R => (px (P 1%nat) - px (P 0%nat)) * (py (P 3%nat) - py (P 0%nat))
  | TET4 => inner (minus (P 1%nat) (P 0%nat)) (cprod (minus (P 2%nat) (P 0%nat)) (minus (P 3%nat) (P 0%nat))) / 6
  | HEX8R => (px (P 1%nat) - px (P 0%nat)) * (py (P 3%nat) - py (P 0%nat)) * (pz (P 4%nat) - pz (P 0%nat))
  end.

Definition rsum (l : list R) : R := fold_right Rplus 0 l.

Lemma gauss ty p c : elemR ty p ->
  INR (nDis ty) * volR ty p = rsum (map (fun i => fac ty * inner (outV ty p i) (minus (fv ty p i 0) c)) (seq 0 (nElFas ty))).
Proof.
  intros E. destruct c as [[cx' cy'] cz']. destruct ty; cbn [nElFas nDis seq map rsum fold_right fac INR].
  - destruct E as (x0 & x1 & y0 & y1 & -> & _). unfold volR. ev. ring.
  - destruct E as (ax & ay & bx & bY & cx & cy & -> & _). unfold volR. ev. field.
  - destruct E as (x0 & x1 & y0 & y1 & z0 & z1 & -> & _). unfold volR. ev. ring.
  - destruct E as (a & b & c & d & -> & _). destruct a as [[? ?] ?], b as [[? ?] ?], c as [[? ?] ?], d as [[? ?] ?]. unfold volR. ev. field.
Qed.

Lemma volR_pos ty p : elemR ty p -> 0 < volR ty p.
Proof.
  intros E. destruct ty.
  - destruct E as (x0 & x1 & y0 & y1 & -> & H1 & H2). unfold volR. ev. apply Rmult_lt_0_compat; lra.
  - destruct E as (ax & ay & bx & bY & cx & cy & -> & H). unfold volR. ev. lra.
  - destruct E as (x0 & x1 & y0 & y1 & z0 & z1 & -> & H1 & H2 & H3). unfold volR. ev. repeat apply Rmult_lt_0_compat; lra.
  - destruct E as (a & b & c & d & -> & H). unfold volR. cbn [nth]. lra.
Qed.

(** ** Volume, vertices in arbitrary order *)
Lemma len_z z : len (0, 0, z) = Rabs z.
Proof. unfold len. vec. rewrite <- sqrt_Rsqr_abs. f_equal. unfold Rsqr. ring. Qed.

Lemma fabs_R x : fabs 0 Ropp rltb x = Rabs x.
Proof. unfold fabs, Rabs. destruct (Rcase_abs x) as [H|H]; [apply rltb_lt in H; rewrite H; reflexivity|]. assert (X : rltb x 0 = false) by (apply rltb_le; lra). rewrite X. reflexivity. Qed.
Lemma fmx_R a b : fmx rltb a b = Rmax a b.
Proof. unfold fmx. destruct (rltb a b) eqn:E; [apply rltb_lt in E; rewrite Rmax_right; lra|apply rltb_le in E; rewrite Rmax_left; lra]. Qed.
Lemma fmn_R a b : fmn rltb a b = Rmin a b.
Proof. unfold fmn. destruct (rltb b a) eqn:E; [apply rltb_lt in E; rewrite Rmin_right; lra|apply rltb_le in E; rewrite Rmin_left; lra]. Qed.

Lemma fold_max {A} (f : A -> R) l : forall m0, let m := fold_left (fun m p => fmx rltb m (f p)) l m0 in
  m0 <= m /\ (forall p, In p l -> f p <= m) /\ (m = m0 \/ exists p, In p l /\ m = f p).
Proof.
  induction l as [|a l IH]; intros m0 m; cbn in m.
  - split; [unfold m; lra|]. split; [intros ? []|left; reflexivity].
  - destruct (IH (fmx rltb m0 (f a))) as (H1 & H2 & H3). fold m in H1, H2, H3. rewrite fmx_R in *. assert (X1 := Rmax_l m0 (f a)). assert (X2 := Rmax_r m0 (f a)).
    split; [lra|]. split.
    + intros p [<-|I]; [lra|]. apply H2. exact I.
    + destruct H3 as [H3|(p & I & H3)].
      * destruct (Rle_dec m0 (f a)) as [E|E]; [rewrite Rmax_right in H3 by lra|rewrite Rmax_left in H3 by lra]; [|left; exact H3]. right. exists a. split; [left; reflexivity|exact H3].
      * right. exists p. split; [right; exact I|exact H3].
Qed.

Lemma distMax1_ok n (c : V -> R) (k : list V) lo hi : length k = n -> lo <= hi -> (forall v, In v k -> lo <= c v <= hi) ->
  (exists v, In v k /\ c v = lo) -> (exists v, In v k /\ c v = hi) -> GeomV.distMax1 0 Rminus Ropp rltb n c k = hi - lo.
Proof.
  intros L LH B (v0 & I0 & E0) (v1 & I1 & E1). unfold GeomV.distMax1.
  destruct (fold_max (fun p => fabs 0 Ropp rltb (c (ve k (fst p)) - c (ve k (snd p)))) (list_prod (seq 0 n) (seq 0 n)) 0) as (H1 & H2 & H3).
  set (m := fold_left _ _ _) in *.
  apply (In_nth _ _ (0, 0, 0)) in I0 as (j0 & J0 & N0). apply (In_nth _ _ (0, 0, 0)) in I1 as (j1 & J1 & N1).
  assert (IP : In (j1, j0) (list_prod (seq 0 n) (seq 0 n))) by (apply in_prod; apply in_seq; unfold V, GeomV.vec in *; clear - J0 J1 L; lia).
  assert (X := H2 (j1, j0) IP). cbn [fst snd] in X. assert (M0 : ve k j0 = v0) by exact N0. assert (M1 : ve k j1 = v1) by exact N1. rewrite M0, M1, E0, E1 in X. rewrite fabs_R in X.
  assert (Y : m <= hi - lo). { destruct H3 as [->|((a, b) & I & ->)]; [lra|]. apply in_prod_iff in I as (Ia & Ib). apply in_seq in Ia. apply in_seq in Ib. cbn [fst snd]. rewrite fabs_R.
    assert (B1 : lo <= c (ve k a) <= hi) by (apply B; apply nth_In; unfold V, GeomV.vec in *; lia). assert (B2 : lo <= c (ve k b) <= hi) by (apply B; apply nth_In; unfold V, GeomV.vec in *; lia). unfold Rabs. destruct (Rcase_abs _); lra. }
  unfold Rabs in X. destruct (Rcase_abs _); lra.
Qed.

Lemma tetDet_R a b c d : tetDet Rplus Rminus Rmult a b c d = - inner (minus b a) (cprod (minus c a) (minus d a)).
Proof. destruct a as [[? ?] ?], b as [[? ?] ?], c as [[? ?] ?], d as [[? ?] ?]. cbv [tetDet dot cross vX vY vZ fst snd]. vec. ring. Qed.

Lemma in_range (k p : list V) (c : V -> R) lo hi : Permutation p k -> (forall v, In v p -> lo <= c v <= hi) -> forall v, In v k -> lo <= c v <= hi.
Proof. intros P H v I. apply H. apply (Permutation_in v (Permutation_sym P)). exact I. Qed.
Lemma in_ex (k p : list V) (c : V -> R) x : Permutation p k -> (exists v, In v p /\ c v = x) -> exists v, In v k /\ c v = x.
Proof. intros P (v & I & E). exists v. split; auto. apply (Permutation_in v P). exact I. Qed.

Lemma box_dist n (p k : list V) c lo hi : length p = n -> Permutation p k -> lo < hi -> (forall v, In v p -> lo <= c v <= hi) -> (exists v, In v p /\ c v = lo) -> (exists v, In v p /\ c v = hi) ->
  GeomV.distMax1 0 Rminus Ropp rltb n c k = hi - lo.
Proof. intros L P H1 H2 H3 H4. apply distMax1_ok; [rewrite <- (Permutation_length P); exact L|lra|exact (in_range _ _ _ _ _ P H2)|exact (in_ex _ _ _ _ P H3)|exact (in_ex _ _ _ _ P H4)]. Qed.

Ltac inr := intros ?v Hv; cbn in Hv; decompose [or] Hv; try contradiction; subst; unfold vX, vY, vZ; cbn [fst snd]; lra.
Ltac find_in := cbn; first [left; reflexivity | right; find_in].
Lemma box_ex (p : list V) (c : V -> R) x i : (i < length p)%nat -> c (nth i p pt0) = x -> exists v, In v p /\ c v = x.
Proof. intros H E. exists (nth i p pt0). split; auto. apply nth_In. exact H. Qed.

Lemma reqb_ne a b : a <> b -> reqb a b = false.
Proof. intros H. destruct (reqb a b) eqn:E; auto. apply reqb_eq in E. contradiction. Qed.

Lemma quad_dist x0 x1 y0 y1 k : x0 < x1 -> y0 < y1 -> Permutation [(x0, y0, 0); (x1, y0, 0); (x1, y1, 0); (x0, y1, 0)] k ->
  quadDistMax 0 Rminus Ropp rltb reqb k = Ok (x1 - x0, y1 - y0).
Proof.
  intros H1 H2 P. unfold quadDistMax.
  assert (EX : GeomV.distMax1 0 Rminus Ropp rltb 4 vX k = x1 - x0).
  { eapply (box_dist 4); [|exact P|exact H1|inr| |]; [reflexivity|apply (box_ex _ _ _ 0); [cbn; lia|reflexivity]|apply (box_ex _ _ _ 1); [cbn; lia|reflexivity]]. }
  assert (EY : GeomV.distMax1 0 Rminus Ropp rltb 4 vY k = y1 - y0).
  { eapply (box_dist 4); [|exact P|exact H2|inr| |]; [reflexivity|apply (box_ex _ _ _ 0); [cbn; lia|reflexivity]|apply (box_ex _ _ _ 2); [cbn; lia|reflexivity]]. }
  rewrite EX, EY, !reqb_ne by lra. reflexivity.
Qed.

Lemma hex_dist x0 x1 y0 y1 z0 z1 k : x0 < x1 -> y0 < y1 -> z0 < z1 ->
  Permutation [(x0, y0, z0); (x1, y0, z0); (x1, y1, z0); (x0, y1, z0); (x0, y0, z1); (x1, y0, z1); (x1, y1, z1); (x0, y1, z1)] k ->
  hexDistMax 0 Rminus Ropp rltb reqb k = Ok (x1 - x0, y1 - y0, z1 - z0).
Proof.
  intros H1 H2 H3 P. unfold hexDistMax.
  assert (EX : GeomV.distMax1 0 Rminus Ropp rltb 8 vX k = x1 - x0).
  { eapply (box_dist 8); [|exact P|exact H1|inr| |]; [reflexivity|apply (box_ex _ _ _ 0); [cbn; lia|reflexivity]|apply (box_ex _ _ _ 1); [cbn; lia|reflexivity]]. }
  assert (EY : GeomV.distMax1 0 Rminus Ropp rltb 8 vY k = y1 - y0).
  { eapply (box_dist 8); [|exact P|exact H2|inr| |]; [reflexivity|apply (box_ex _ _ _ 0); [cbn; lia|reflexivity]|apply (box_ex _ _ _ 2); [cbn; lia|reflexivity]]. }
  assert (EZ : GeomV.distMax1 0 Rminus Ropp rltb 8 vZ k = z1 - z0).
  { eapply (box_dist 8); [|exact P|exact H3|inr| |]; [reflexivity|apply (box_ex _ _ _ 0); [cbn; lia|reflexivity]|apply (box_ex _ _ _ 4); [cbn; lia|reflexivity]]. }
  rewrite EX, EY, EZ, !reqb_ne by lra. reflexivity.
Qed.

Lemma volume_ok ty p k : elemR ty p -> Permutation p k -> volume (enOf ty) k = Ok (volR ty p).
Proof.
  intros E P. assert (VP := volR_pos ty p E). destruct ty; cbn [enOf GeomV.volume].
  - destruct E as (x0 & x1 & y0 & y1 & -> & H1 & H2). apply perms_in in P. f_equal. unfold quadArea.
    assert (X : exists a b c r, k = a :: b :: c :: r /\ (cprod (minus b a) (minus c a) = (0, 0, (x1 - x0) * (y1 - y0)) \/ cprod (minus b a) (minus c a) = scale (-1) (0, 0, (x1 - x0) * (y1 - y0)))).
    { cbn in P. decompose [or] P; try contradiction; subst k; eexists; eexists; eexists; eexists; (split; [reflexivity|]); ev; first [solve [left; apply V_eq; ring] | right; apply V_eq; ring]. }
    destruct X as (a & b & c & r & -> & X). rewrite (tria_area a b c _ r X), len_z. unfold volR in *. cbn [nth px py fst snd] in *. unfold px, py in *. cbn [fst snd] in *. rewrite Rabs_right by lra. unfold two. field.
  - destruct E as (ax & ay & bx & bY & cx & cy & -> & H). apply perms_in in P. f_equal.
    assert (X : exists a b c r, k = a :: b :: c :: r /\ (cprod (minus b a) (minus c a) = (0, 0, (bx - ax) * (cy - ay) - (cx - ax) * (bY - ay)) \/ cprod (minus b a) (minus c a) = scale (-1) (0, 0, (bx - ax) * (cy - ay) - (cx - ax) * (bY - ay)))).
    { cbn in P. decompose [or] P; try contradiction; subst k; eexists; eexists; eexists; eexists; (split; [reflexivity|]); ev; first [solve [left; apply V_eq; ring] | right; apply V_eq; ring]. }
    destruct X as (a & b & c & r & -> & X). rewrite (tria_area a b c _ r X), len_z. rewrite Rabs_right by lra. unfold volR. ev. field.
  - destruct E as (x0 & x1 & y0 & y1 & z0 & z1 & -> & H1 & H2 & H3). unfold hexVolume. rewrite (hex_dist x0 x1 y0 y1 z0 z1 k H1 H2 H3 P). cbn [bind]. unfold vX, vY, vZ, volR, px, py, pz. cbn [nth fst snd]. reflexivity.
  - destruct E as (a & b & c & d & -> & H). apply perms_in in P. f_equal. unfold tetVolume. rewrite tetDet_R, fabs_R.
    assert (X : inner (minus (ve k 1) (ve k 0)) (cprod (minus (ve k 2) (ve k 0)) (minus (ve k 3) (ve k 0))) = inner (minus b a) (cprod (minus c a) (minus d a)) \/
      inner (minus (ve k 1) (ve k 0)) (cprod (minus (ve k 2) (ve k 0)) (minus (ve k 3) (ve k 0))) = - inner (minus b a) (cprod (minus c a) (minus d a))).
    { clear H VP. destruct a as [[? ?] ?], b as [[? ?] ?], c as [[? ?] ?], d as [[? ?] ?]. cbn in P. decompose [or] P; try contradiction; subst k; cbn [GeomV.ve nth]; vec; first [solve [left; ring] | right; ring]. }
    unfold volR. cbn [nth]. unfold six, four, two. destruct X as [-> | ->].
    + rewrite Rabs_Ropp, Rabs_right by lra. field.
    + rewrite Ropp_involutive, Rabs_right by lra. field.
Qed.
