(** C98: the sub-grids of quads are lattices of squares for every degree, and meet what the sub-cell solver requires. *)
From Coq Require Import List Arith Bool QArith Reals Lra Lia Permutation.
From Verif Require Import Util ElSpec ElWave ElMid ElFace Llf LlfSpec LlfV ScQuad ScQuadSpec ScQuadV ScQuadW Props_Llf.
Import ListNotations.
Open Scope nat_scope.

(** The sub-cells of degree [deg] are the squares of a lattice of (2 deg + 1) x (2 deg + 1): vertices, adjacent sub-cells and types of the sub-faces are those of the lattice; every ghost sub-cell knows the sub-cell next to it. *)
Theorem C98_lattice : forall deg, let n := 2 * deg + 1 in exists num, numbering n num /\
  (let '(i, s, r) := scSv deg in length i = (n - 2) * (n - 2) /\ length (i ++ s) = n * n /\ length r = 4 * n) /\
  (forall x y, x < n -> y < n ->
     (forall i, i < 4 -> vertexOf deg (num x y) i (corner n x y i)) /\
     nth_error (rows3 (scSfSc deg)) (num x y) = Some (map (fun j => Some (numOf n num (look n x y j))) [0; 1; 2; 3]) /\
     nth_error (rows2 (scTySf deg)) (num x y) = Some (map (fun j => typeOf j (look n x y j)) [0; 1; 2; 3])) /\
  (forall x y j fa sf, x < n -> y < n -> j < 4 -> look n x y j = Beyond fa sf -> nth_error (rows3 (scSfSc deg)) (n * n + n * fa + sf) = Some [Some (num x y); None; None; None]) /\
  length (rows3 (scSfSc deg)) = n * n + 4 * n /\ length (rows2 (scTySf deg)) = n * n.
Proof.
  intros deg. cbv zeta. change (2 * deg + 1) with (nSfs deg). assert (N := n_pos deg). exists (numS (nSfs deg)). split; [apply numS_ok; auto|].
  assert (R : rows3 (scSfSc deg) = map (row (nSfs deg)) (order (nSfs deg))) by (rewrite rows_ok; unfold rows3, order; rewrite !map_app; reflexivity).
  assert (T : rows2 (scTySf deg) = map (tyRow (nSfs deg)) (inner_ (nSfs deg) ++ send_ (nSfs deg))) by (rewrite types_ok; unfold rows2; rewrite map_app; reflexivity).
  rewrite R, T. split; [|split; [|split; [|split]]].
  - unfold scSv. rewrite in_ves, send_ves, recv_ves, <- map_app, !map_length, len_inner, len_squares by auto. repeat split; auto. unfold recv_. rewrite !app_length, !map_length, !seq_length. lia.
  - intros x y Hx Hy. split; [intros; apply vertex_sq; auto|]. split.
    + unfold numS at 1. rewrite row_num by (cbn [okKind]; auto). f_equal. unfold row. change [0; 1; 2; 3] with (seq 0 4). apply map_ext_in. intros j Hj. apply in_seq in Hj. rewrite look_opp by lia. rewrite numOf_num by (auto; apply look_ok; auto; lia). destruct j as [|[|[|[|j]]]]; try lia; reflexivity.
    + assert (Q := num_nth (nSfs deg) (Sq x y)). cbn [okKind] in Q. specialize (Q (conj Hx Hy)). unfold order in Q. rewrite app_assoc, nth_error_app1 in Q by (rewrite len_squares by auto; apply num_sq; auto). unfold numS. rewrite nth_error_map, Q. reflexivity.
  - intros x y j fa sf Hx Hy Hj L. assert (K := look_ok _ x y j Hx Hy Hj). rewrite L in K. cbn [kindOf okKind] in K. rewrite <- num_gh by tauto. rewrite row_num by (cbn [okKind]; tauto). unfold numS. set (n := nSfs deg) in *. clearbody n.
    destruct j as [|[|[|[|j]]]]; [| | | |lia]; cbn [look] in L; (match type of L with (if ?a =? ?b then _ else _) = _ => destruct (Nat.eqb_spec a b); [|discriminate] end); injection L as <- <-; cbn [row map seq edge opp fst]; repeat f_equal; lia.
  - rewrite map_length. apply len_order; auto.
  - rewrite map_length. apply len_squares; auto.
Qed.
Print Assumptions C98_lattice.
Example C98_lattice_ex : scSfSc 0 = ([], [[Some 1; Some 2; Some 3; Some 4]], [[Some 0; None; None; None]; [Some 0; None; None; None]; [Some 0; None; None; None]; [Some 0; None; None; None]]) /\
  map (map Some) (adTable quadGrid) = firstn 9 (rows3 (scSfSc 1)) /\ tyTable quad quadGrid = rows2 (scTySf 1).
Proof. split; [|split]; reflexivity. Qed.

(** The sub-cells tile the element: every point is in exactly one. *)
Theorem C98_tiling : forall deg p, let n := 2 * deg + 1 in (0 <= fst p < 1)%Q -> (0 <= snd p < 1)%Q ->
  exists c, c < n * n /\ inCell deg c p /\ forall c', c' < n * n -> inCell deg c' p -> c' = c.
Proof.
  intros deg p. cbv zeta. change (2 * deg + 1) with (nSfs deg). assert (N := n_pos deg). intros Px Py. destruct (cell_exists _ _ N Px) as (x & Hx & Ex). destruct (cell_exists _ _ N Py) as (y & Hy & Ey). exists (num (nSfs deg) (Sq x y)).
  split; [apply num_sq; auto|]. split; [apply in_square; auto|]. intros c' Hc I. destruct (nth_sq _ c' N Hc) as (x' & y' & Hx' & Hy' & Q). apply num_unique in Q. rewrite Q in I. apply in_square in I; auto. destruct I as (Ix & Iy).
  rewrite Q, (cell_unique _ _ x' x N Ix Ex), (cell_unique _ _ y' y N Iy Ey). reflexivity.
Qed.
Print Assumptions C98_tiling.
Example C98_tiling_ex : (0 <= 1 # 2 < 1)%Q /\ inCell 1 0 (1 # 2, 1 # 2)%Q.
Proof.
  split; [split; reflexivity || (intros H; discriminate)|]. exists (frac 1 3, frac 1 3), (frac 2 3, frac 2 3). split; [exact (vertex_sq 1 1 1 0 ltac:(cbn; lia) ltac:(cbn; lia) ltac:(lia))|]. split; [exact (vertex_sq 1 1 1 2 ltac:(cbn; lia) ltac:(cbn; lia) ltac:(lia))|]. repeat split; reflexivity || (intros H; discriminate).
Qed.

(** Sub-face [sf] of a face is part [sf] of the face, counted counter-clockwise, for the ghost sub-cell, for the sub-cell next to it and for the integration of the DG solution. *)
Theorem C98_subfaces : forall deg fa sf, let n := 2 * deg + 1 in fa < 4 -> sf < n ->
  let a := facePt fa (frac sf n) in let b := facePt fa (frac (sf + 1) n) in let gh := n * n + n * fa + sf in
  vertexOf deg gh 0 a /\ vertexOf deg gh 1 b /\
  (exists c, c < n * n /\ nth_error (rows3 (scSfSc deg)) gh = Some [Some c; None; None; None] /\ vertexOf deg c fa a /\ vertexOf deg c ((fa + 1) mod 4) b) /\
  ((fst (intSf deg fa sf) == running fa a /\ snd (intSf deg fa sf) == running fa b) \/ (fst (intSf deg fa sf) == running fa b /\ snd (intSf deg fa sf) == running fa a))%Q /\
  (fst (intSf deg fa sf) < snd (intSf deg fa sf))%Q.
Proof.
  intros deg fa sf. cbv zeta. change (2 * deg + 1) with (nSfs deg). assert (N := n_pos deg). intros Hf Hs. destruct (ghost_vertices deg fa sf Hf Hs) as (A & B). split; [exact A|]. split; [exact B|]. split.
  - exists (num (nSfs deg) (Sq (fst (sqAt (nSfs deg) fa sf)) (snd (sqAt (nSfs deg) fa sf)))). split; [apply num_sq; auto; destruct fa as [|[|[|[|fa]]]]; cbn [sqAt fst snd]; lia|]. split; [|apply square_at; auto].
    rewrite rows_ok. unfold rows3. rewrite <- !map_app. fold (order (nSfs deg)). rewrite <- num_gh by auto. rewrite row_num by (cbn [okKind]; auto). destruct fa as [|[|[|[|fa]]]]; [| | | |lia]; reflexivity.
  - assert (I : forall k, (inject_Z (Z.of_nat k) * inc deg == frac k (nSfs deg))%Q) by (intros; unfold inc, frac, Qdiv; ring).
    assert (LT : (frac sf (nSfs deg) < frac (sf + 1) (nSfs deg))%Q) by (apply Qnot_le_lt; rewrite frac_le by auto; lia).
    destruct fa as [|[|[|[|fa]]]]; [| | | |lia]; cbn [intSf facePt running fst snd]; rewrite !I, ?Qplus_0_l; (split; [(left; split; reflexivity) || (right; split; reflexivity)|]); auto; apply Qplus_lt_r; apply Qopp_lt_compat; auto.
Qed.
Print Assumptions C98_subfaces.
Example C98_subfaces_ex : facePt 2 (frac 0 3) = (1 - frac 0 3, 1)%Q /\ (fst (intSf 1 2 0) == 2 # 3)%Q /\ (snd (intSf 1 2 0) == 1)%Q.
Proof. repeat split; reflexivity. Qed.

(** Faces of adjacent elements run in opposite directions: the reordering gives the sub-face of the adjacent element which covers the same points. *)
Theorem C98_neighbour : forall deg sf, let n := 2 * deg + 1 in sf < n -> exists sf', nth_error (scDgAd deg) sf = Some sf' /\ sf' < n /\ nth_error (scDgAd deg) sf' = Some sf /\
  forall chi, ((frac sf n <= chi <= frac (sf + 1) n) <-> (frac sf' n <= 1 - chi <= frac (sf' + 1) n))%Q.
Proof.
  intros deg sf. cbv zeta. change (2 * deg + 1) with (nSfs deg). assert (N := n_pos deg). intros Hs. set (n := nSfs deg) in *.
  assert (D : forall k, k < n -> nth_error (scDgAd deg) k = Some (n - 1 - k)).
  { intros k Hk. unfold scDgAd. fold n. unfold range. rewrite Nat.sub_0_r. rewrite (nth_error_nth' _ 0) by (rewrite rev_length, seq_length; auto). f_equal. rewrite rev_nth, seq_length, seq_nth by (rewrite ?seq_length; lia). lia. }
  exists (n - 1 - sf). rewrite !D by lia. split; [auto|]. split; [lia|]. split; [f_equal; lia|]. intros chi.
  assert (E1 := one_minus n sf N ltac:(lia)). assert (E2 := one_minus n (sf + 1) N ltac:(lia)). replace (n - (sf + 1)) with (n - 1 - sf) in E2 by lia. replace (n - sf) with (n - 1 - sf + 1) in E1 by lia. rewrite E1, E2.
  assert (M : forall a b : Q, (1 - a <= 1 - b)%Q <-> (b <= a)%Q).
  { intros a b. unfold Qminus. rewrite Qplus_le_r. split; intros H; [|apply Qopp_le_compat; auto]. apply Qopp_le_compat in H. rewrite !Qopp_involutive in H. auto. }
  rewrite !M. tauto.
Qed.
Print Assumptions C98_neighbour.
Example C98_neighbour_ex : scDgAd 1 = [2; 1; 0]. Proof. reflexivity. Qed.

(** For parallelograms the tables are those of a sub-grid whose inner sub-faces come in pairs and whose sub-cells are closed, as required in C97. *)
Theorem C98_grid : forall deg e, let n := 2 * deg + 1 in parallelogram e -> exists g, length g = n * n /\ wfGrid e (n * n + 4 * n) g /\ paired 2 n e g /\ (forall sc, In sc g -> closed 2 n e sc) /\
  map (map Some) (adTable g) = firstn (n * n) (rows3 (scSfSc deg)) /\ tyTable e g = rows2 (scTySf deg).
Proof.
  intros deg e. cbv zeta. change (2 * deg + 1) with (nSfs deg). assert (N := n_pos deg). intros P. assert (P' := P). destruct P' as (F & _). exists (gridOf (nSfs deg)).
  split; [apply len_grid; auto|]. split; [apply grid_wf; auto|]. split; [apply grid_paired; auto|]. split; [intros sc; apply grid_closed; auto|]. split.
  - rewrite grid_ad by auto. rewrite rows_ok. unfold rows3. rewrite app_assoc, <- (len_squares _ N), <- map_app. rewrite firstn_app, !map_length, Nat.sub_diag, firstn_O, app_nil_r. rewrite firstn_all2; auto. rewrite map_length; auto.
  - rewrite grid_ty by auto. rewrite types_ok. reflexivity.
Qed.
Print Assumptions C98_grid.
Lemma quad_parallelogram : parallelogram quad.
Proof. split; [reflexivity|]. intros fa H. destruct fa as [|[|fa]]; [| |lia]; (split; [reflexivity|]); intros i Hi; (destruct i as [|[|i]]; [| |lia]); cbv -[Rplus Rmult Ropp Rinv Rdiv IZR]; lra. Qed.
Example C98_grid_ex : parallelogram quad. Proof. exact quad_parallelogram. Qed.

Lemma some_inj (a b : list (list nat)) : map (map Some) a = map (map Some) b -> a = b.
Proof.
  revert b. induction a as [|x a IH]; intros [|y b] H; cbn in H; try discriminate; auto. injection H as H1 H2. f_equal; [|auto]. clear - H1. revert y H1. induction x as [|u x IH]; intros [|v y] H; cbn in H; try discriminate; auto. injection H as -> H. f_equal. auto.
Qed.

Lemma combine_num {A B} (num : A -> nat) (f : A -> B) L : forall (dofs pre : list (list R)), (forall i k, nth_error L i = Some k -> num k = length pre + i) -> length L <= length dofs ->
  combine dofs (map f L) = map (fun k => (nth (num k) (pre ++ dofs) [], f k)) L.
Proof.
  induction L as [|k L IH]; intros [|q dofs] pre H LL; cbn in LL |- *; try lia; auto. f_equal.
  - rewrite (H 0 k eq_refl), Nat.add_0_r, app_nth2, Nat.sub_diag by lia. reflexivity.
  - rewrite (IH dofs (pre ++ [q])); [rewrite <- app_assoc; reflexivity| |lia]. intros i k' Hk. rewrite (H (S i) k' Hk), app_length. cbn. lia.
Qed.
Lemma rsum_perm {A} (l l' : list A) (P : Permutation l l') (f : A -> R) : rsum (map f l) = rsum (map f l').
Proof. unfold rsum. induction P; cbn; auto; try lra. Qed.
Lemma rsum_filter {A} (p : A -> bool) (f : A -> R) l : rsum (map f (filter p l)) = rsum (map (fun s => if p s then f s else 0%R) l).
Proof. unfold rsum. induction l as [|a l IH]; cbn; auto. destruct (p a); cbn; rewrite IH; [reflexivity|ring]. Qed.
Lemma squares_perm n : Permutation (inner_ n ++ send_ n) (map (fun p => Sq (fst p) (snd p)) (list_prod (seq 0 n) (seq 0 n))).
Proof.
  apply NoDup_Permutation.
  - apply nodup_app; [apply nodup_inner|apply nodup_send|]. intros k H H'. apply in_inner in H. destruct H as (x & y & -> & H). apply in_send in H'. destruct H' as (x' & y' & E & H'). injection E as <- <-. lia.
  - apply nodup_map; [intros (a & b) (a' & b') E; cbn in E; congruence|]. enough (X : forall l, NoDup l -> NoDup (list_prod l (seq 0 n))) by (apply X, seq_NoDup). induction l as [|a l IH]; intros ND; cbn; [constructor|]. inversion ND; subst. apply nodup_app; auto.
    + apply nodup_map; [congruence|apply seq_NoDup].
    + intros x Hx Hx'. apply in_map_iff in Hx. destruct Hx as (b & <- & _). apply in_prod_iff in Hx'. tauto.
  - intros k. rewrite in_map_iff. split.
    + intros H. apply squares_in in H. destruct H as (x & y & -> & Hx & Hy). exists (x, y). split; auto. apply in_prod; apply in_seq; lia.
    + intros ((x & y) & <- & H). apply in_prod_iff in H. rewrite !in_seq in H. cbn [fst snd]. assert (I : In (Sq x y) (order n)) by (apply in_order; cbn; lia). unfold order in I. rewrite app_assoc in I. apply in_app_or in I. destruct I as [I|I]; auto. apply in_recv in I. destruct I as (? & ? & E & _). discriminate.
Qed.

(** A step of the sub-cell solver of a parallelogram with these tables is defined for every degree; with equal states everywhere it changes nothing, otherwise the totals change by what passes the element's faces: sub-face by sub-face, the change at the boundary. *)
Theorem C98_solver : forall deg mats e mem dt ad netUp dofs out, let n := 2 * deg + 1 in
  wfElem 2 mats e -> parallelogram e -> ready 2 n (n * n) mats e mem -> map (map Some) ad = firstn (n * n) (rows3 (scSfSc deg)) ->
  length dofs = n * n + 4 * n -> (forall q, In q dofs -> length q = nQt 2) -> length netUp = 4 -> length out = n * n ->
  exists out', tsSc 2 (nFaces e) (nPlanes e) (fst mem) (snd mem) dt ad (rows2 (scTySf deg)) netUp (n * n) dofs out = Ok out' /\ length out' = n * n /\
    (forall q, (forall x, In x dofs -> x = q) -> netUp = repeat false 4 -> (forall fa, fa < 4 -> matAd mats e (Outer fa) = matEl mats e) -> out' = repeat q (n * n)) /\
    exists num, numbering n num /\ forall c, total c out' = Rplus (total c (firstn (n * n) dofs)) (rsum (map (fun p => rsum (map (fun j =>
      match look n (fst p) (snd p) j with
      | Square _ _ => 0%R
      | Beyond fa sf => nth c (change 2 mats e n (n * n) dt (fun fa => nth fa netUp false) dofs (nth (num (fst p) (snd p)) dofs []) {| sAd := n * n + n * fa + sf; sTy := Outer fa |}) 0%R
      end) [0; 1; 2; 3])) (list_prod (seq 0 n) (seq 0 n)))).
Proof.
  intros deg mats e mem dt ad netUp dofs out. cbv zeta. change (2 * deg + 1) with (nSfs deg). assert (N := n_pos deg). intros W P RD AD LD LQ LN LO. assert (F : nFaces e = 4) by apply P. assert (NN : 0 < nSfs deg * nSfs deg) by nia.
  assert (TY : rows2 (scTySf deg) = tyTable e (gridOf (nSfs deg))) by (rewrite grid_ty, types_ok by auto; reflexivity).
  assert (EA : ad = adTable (gridOf (nSfs deg))).
  { apply some_inj. rewrite AD, grid_ad by auto. rewrite rows_ok. unfold rows3. rewrite app_assoc, <- (len_squares _ N), <- map_app. rewrite firstn_app, !map_length, Nat.sub_diag, firstn_O, app_nil_r. rewrite firstn_all2; auto. rewrite map_length; auto. }
  rewrite TY, EA. assert (D : dim 2) by (left; reflexivity). assert (G : wfGrid e (length dofs) (gridOf (nSfs deg))) by (rewrite LD; apply grid_wf; auto).
  assert (WD : wfDofs 2 (nSfs deg * nSfs deg) (gridOf (nSfs deg)) dofs) by (split; [apply len_grid; auto|split; [lia|auto]]).
  destruct (C97_step 2 _ _ mats e mem dt _ netUp dofs out D W NN RD G WD ltac:(lia) LO) as (out' & E & L' & _). exists out'. split; [exact E|]. split; [exact L'|]. split.
  - intros q U -> MA. rewrite <- F in E. rewrite (C97_uniform 2 _ _ mats e mem dt _ dofs out q D W NN RD G WD LO U) in E; [congruence|rewrite F; auto|]. intros sc. apply grid_closed; auto.
  - exists (numS (nSfs deg)). split; [apply numS_ok; auto|]. intros c. rewrite (C97_conservation 2 _ _ mats e mem dt _ netUp dofs out out' c D W NN RD G WD ltac:(lia) LO (grid_paired _ e N P) E). f_equal.
    unfold gridOf at 1. rewrite (combine_num (num (nSfs deg)) (cellOf (nSfs deg)) (inner_ (nSfs deg) ++ send_ (nSfs deg)) dofs []).
    + cbn [app]. rewrite map_map. cbn [fst snd]. rewrite (rsum_perm _ _ (squares_perm (nSfs deg))), map_map. f_equal. apply map_ext. intros (x & y). cbn [fst snd]. rewrite rsum_filter. cbn [cellOf]. rewrite map_map. f_equal. change [0; 1; 2; 3] with (seq 0 4). apply map_ext. intros j. unfold sfOf, inner. cbn [sTy].
      destruct (look (nSfs deg) x y j); reflexivity.
    + intros i k Hk. cbn [length Nat.add]. symmetry. apply num_unique. unfold order. rewrite app_assoc, nth_error_app1; auto. apply nth_error_Some. congruence.
    + rewrite len_squares by auto. lia.
Qed.
Print Assumptions C98_solver.
Example C98_solver_ex : wfElem 2 quadMats quad /\ parallelogram quad /\ (exists mem, ready 2 3 9 quadMats quad mem) /\ (exists ad, map (map Some) ad = firstn 9 (rows3 (scSfSc 1))) /\ length quadDofs = 9 + 4 * 3 /\ forall q, In q quadDofs -> length q = nQt 2.
Proof. split; [apply quad_wf|]. split; [apply quad_parallelogram|]. split; [apply C97_setup_ex|]. split; [exists (adTable quadGrid); reflexivity|]. split; [reflexivity|apply quad_dofs]. Qed.
