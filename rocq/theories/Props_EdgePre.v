(** Property C84: EDGEpre's matrices.  The generated mass, stiffness and flux matrices are the exact operators of the discontinuous Galerkin method: differentiation,
    integration against derivatives of the basis and integration over faces, also from the adjacent element's side.  With them the kernels' predictor solves the
    partial differential equations, and what the proofs of the kernels assume of the matrices holds. *)
From Coq Require Import List ZArith Reals Lra Lia Bool.
From Verif Require Import ElGen Elastic ElSpec ElWave ElFlux ElFace InitFs ElMom Props_Mat Props_AderEl.
From Verif Require Import BasisSpec BasisInt BasisOrth Basis BasisModes BasisSpan BasisDer EdgePreM EdgePreP.
From Verif Require Import Util MeshConn Lts Ader AderSpec AderV AderCk Props_Ader Props_AderR AderEl AderElSpec AderLtsSpec AderConsSpec Props_AderCons.
From Verif Require Comm Mapping Props_Map Props_Fwave Props_FwaveR.
Import ListNotations.
Local Open Scope R_scope.

(** *** The matrices are the exact operators *)
Section Exact.
Variables (el : refEl) (n : nat).
Variables stiffT stiffV fluxL fluxN fluxT : nat -> matrix.
Hypothesis NL : el <> Line.
Hypothesis PM : preMats el n stiffT stiffV fluxL fluxN fluxT.
Local Notation N := (nMds el n).
Local Notation F := (nMds (faEl el) n).
Local Notation sq y := (norm2 el (modeAt el n y)).

(** differentiation: row [l] holds the coefficients of the derivative of basis function [l] *)
Theorem C84_derivative di l x y z : (di < dim el)%nat -> (l < N)%nat -> partial (bas el n l) di x y z (rsum N (fun k => stiffT di l k * bas el n k x y z)).
Proof.
  intros Hd Hl. destruct (preMats_entries _ _ _ _ _ _ _ PM) as (stiff & proj0 & ori & HS & _). destruct (HS di Hd) as (S & E).
  destruct (der_span el n di (modeAt el n l) Hd (modeAt_ok el n l Hl)) as (g & G & Sp). fold (bas el n l) in G.
  rewrite (rsum_ext N _ (fun k => stiff di k l * / nb el n k * bas el n k x y z)) by (intros k Hk; now rewrite (proj1 (E l k Hl Hk))).
  rewrite <- (expand el n g (fun k => stiff di k l) Sp).
  - apply G.
  - intros b Hb. destruct (S b l Hb Hl) as (d & D & I). refine (intEl_ext el _ _ _ _ I). intros. f_equal. apply (partial_unique (bas el n l) di x0 y0 z0); [apply D|apply G].
Qed.

(** integration against the derivative of test function [y], divided by the square of its norm *)
Theorem C84_volume di l y d : (di < dim el)%nat -> (l < N)%nat -> (y < N)%nat -> isder di (bas el n y) d -> intEl el (fun a b c => bas el n l a b c * d a b c) (stiffV di l y * sq y).
Proof.
  intros Hd Hl Hy D. destruct (preMats_entries _ _ _ _ _ _ _ PM) as (stiff & proj0 & ori & HS & _). destruct (HS di Hd) as (S & E). rewrite (proj2 (E l y Hl Hy)).
  destruct (S l y Hl Hy) as (d' & D' & I). replace (stiff di l y * / nb el n y * sq y) with (stiff di l y) by (fold (nb el n y); field; apply nb_nz).
  refine (intEl_ext el _ _ _ _ I). intros. f_equal. apply (partial_unique (bas el n y) di x y0 z); [apply D'|apply D].
Qed.

(** the element's trace at a face, integrated over the face against the trace of test function [y], divided by the square of its norm *)
Theorem C84_surface fa l y : (fa < nFas el)%nat -> (l < N)%nat -> (y < N)%nat ->
  intEl (faEl el) (fun a b c => onFace el fa (bas el n l) a b c * onFace el fa (bas el n y) a b c) (rsum F (fun m => fluxL fa l m * fluxT fa m y) * sq y).
Proof.
  intros Hfa Hl Hy. destruct (preMats_entries _ _ _ _ _ _ _ PM) as (stiff & proj0 & ori & _ & HP & _). destruct (HP fa Hfa) as (P & E).
  replace (rsum F (fun m => fluxL fa l m * fluxT fa m y) * sq y) with (rsum F (fun m => proj0 fa l m * proj0 fa y m * / nb (faEl el) n m)).
  - apply (parseval (faEl el) n (onFace el fa (bas el n y)) (onFace el fa (bas el n l)) (fun m => proj0 fa y m) (fun m => proj0 fa l m)); [now apply trace_span| |]; intros b Hb; [now apply P|].
    refine (intEl_ext _ _ _ _ _ (P l b Hl Hb)). intros. ring.
  - rewrite <- rsum_mulr. apply rsum_ext. intros m Hm. rewrite (proj1 (E l m Hl Hm)), (proj2 (E y m Hy Hm)). fold (nb el n y). field. split; apply nb_nz.
Qed.

Lemma fluxN_int ve fn l k : (ve < nOri el)%nat -> (fn < nFas el)%nat -> (l < N)%nat -> (k < F)%nat ->
  intEl (faEl el) (fun a b c => turned el ve (onFace el fn (bas el n l)) a b c * bas (faEl el) n k a b c) (fluxN (ve * nFas el + fn)%nat l k).
Proof.
  intros Hv Hfn Hl Hk. destruct (preMats_entries _ _ _ _ _ _ _ PM) as (stiff & proj0 & ori & _ & HP & HO & HN). destruct (HP fn Hfn) as (P' & _). rewrite HN by assumption.
  assert (X := expand (faEl el) n (onFace el fn (bas el n l)) (fun b => proj0 fn l b) (trace_span el fn n l NL Hfn Hl) (fun b Hb => P' l b Hl Hb)).
  refine (intEl_ext _ (fun a b c => rsum F (fun m => proj0 fn l m * / nb (faEl el) n m * (turned el ve (bas (faEl el) n m) a b c * bas (faEl el) n k a b c))) _ _ _ _).
  - intros a b c. unfold turned at 2. rewrite X, <- rsum_mulr. apply rsum_ext. intros. unfold turned. ring.
  - apply (intEl_sum (faEl el) F (fun m a b c => proj0 fn l m * / nb (faEl el) n m * (turned el ve (bas (faEl el) n m) a b c * bas (faEl el) n k a b c))). intros m Hm.
    apply (intEl_scal _ _ (fun a b c => turned el ve (bas (faEl el) n m) a b c * bas (faEl el) n k a b c)). now apply HO.
Qed.
(** the adjacent element's trace at its face [fn], at the same points of the face (orientation [ve]), integrated against the trace of test function [y] at face [fa] *)
Theorem C84_neighbour ve fn fa l y : (ve < nOri el)%nat -> (fn < nFas el)%nat -> (fa < nFas el)%nat -> (l < N)%nat -> (y < N)%nat ->
  intEl (faEl el) (fun a b c => turned el ve (onFace el fn (bas el n l)) a b c * onFace el fa (bas el n y) a b c) (rsum F (fun m => fluxN (ve * nFas el + fn)%nat l m * fluxT fa m y) * sq y).
Proof.
  intros Hv Hfn Hfa Hl Hy. destruct (preMats_entries _ _ _ _ _ _ _ PM) as (stiff & proj0 & ori & _ & HP & _). destruct (HP fa Hfa) as (P & E).
  set (v := fun m => fluxN (ve * nFas el + fn)%nat l m).
  replace (rsum F (fun m => v m * fluxT fa m y) * sq y) with (rsum F (fun m => v m * proj0 fa y m * / nb (faEl el) n m)).
  2:{ rewrite <- rsum_mulr. apply rsum_ext. intros m Hm. rewrite (proj2 (E y m Hy Hm)). fold (nb el n y). field. split; apply nb_nz. }
  apply (parseval (faEl el) n (onFace el fa (bas el n y)) (turned el ve (onFace el fn (bas el n l))) (fun m => proj0 fa y m) v); [now apply trace_span|intros b Hb; now apply P|].
  intros k Hk. now apply fluxN_int.
Qed.
End Exact.

(** the mass matrix is diagonal, the matrices exist and are unique *)
Theorem C84_mass el n mass a b : isMass el n mass -> (a < nMds el n)%nat -> (b < nMds el n)%nat -> mass a b = if (a =? b)%nat then norm2 el (modeAt el n a) else 0.
Proof. intros H Ha Hb. now apply mass_val. Qed.
Theorem C84_defined el n : el <> Line -> exists stiffT stiffV fluxL fluxN fluxT, preMats el n stiffT stiffV fluxL fluxN fluxT /\
  forall sT sV fL fN fT, preMats el n sT sV fL fN fT -> let N := nMds el n in let F := nMds (faEl el) n in
    (forall di, (di < dim el)%nat -> equal N N (sT di) (stiffT di) /\ equal N N (sV di) (stiffV di)) /\
    (forall fa, (fa < nFas el)%nat -> equal N F (fL fa) (fluxL fa) /\ equal F N (fT fa) (fluxT fa)) /\
    (forall i, (i < nOri el * nFas el)%nat -> equal N F (fN i) (fluxN i)).
Proof.
  intros NL. destruct (preMats_ex el n NL) as (sT & sV & fL & fN & fT & P). exists sT, sV, fL, fN, fT. split; [exact P|]. intros sT' sV' fL' fN' fT' P' N F.
  destruct (preMats_entries _ _ _ _ _ _ _ P) as (s & p & o & HS & HP & HO & HN). destruct (preMats_entries _ _ _ _ _ _ _ P') as (s' & p' & o' & HS' & HP' & HO' & HN').
  assert (ES : forall di i j, (di < dim el)%nat -> (i < N)%nat -> (j < N)%nat -> s' di i j = s di i j).
  { intros di i j Hd Hi Hj. destruct (proj1 (HS di Hd) i j Hi Hj) as (d & D & I1), (proj1 (HS' di Hd) i j Hi Hj) as (d' & D' & I2). apply (intEl_unique el (fun x y z => bas el n i x y z * d' x y z)); [exact I2|].
    refine (intEl_ext el _ _ _ _ I1). intros. f_equal. apply (partial_unique (bas el n j) di x y z); [apply D|apply D']. }
  assert (EP : forall fa i j, (fa < nFas el)%nat -> (i < N)%nat -> (j < F)%nat -> p' fa i j = p fa i j) by (intros fa i j Hfa Hi Hj; exact (intEl_unique _ _ _ _ (proj1 (HP' fa Hfa) i j Hi Hj) (proj1 (HP fa Hfa) i j Hi Hj))).
  assert (EO : forall v i j, (v < nOri el)%nat -> (i < F)%nat -> (j < F)%nat -> o' v i j = o v i j) by (intros v i j Hv Hi Hj; exact (intEl_unique _ _ _ _ (HO' v Hv i j Hi Hj) (HO v Hv i j Hi Hj))).
  split; [|split].
  - intros di Hd. split; intros i j Hi Hj; [rewrite (proj1 (proj2 (HS' di Hd) i j Hi Hj)), (proj1 (proj2 (HS di Hd) i j Hi Hj))|rewrite (proj2 (proj2 (HS' di Hd) i j Hi Hj)), (proj2 (proj2 (HS di Hd) i j Hi Hj))]; now rewrite ES.
  - intros fa Hfa. split; intros i j Hi Hj; [rewrite (proj1 (proj2 (HP' fa Hfa) i j Hi Hj)), (proj1 (proj2 (HP fa Hfa) i j Hi Hj))|rewrite (proj2 (proj2 (HP' fa Hfa) j i Hj Hi)), (proj2 (proj2 (HP fa Hfa) j i Hj Hi))]; now rewrite EP.
  - intros k Hk i j Hi Hj. assert (Z : nFas el <> 0%nat) by (destruct el; discriminate). rewrite (Nat.div_mod_eq k (nFas el)), (Nat.mul_comm (nFas el)).
    assert (Hv : (k / nFas el < nOri el)%nat) by (apply Nat.div_lt_upper_bound; [exact Z|lia]). assert (Hf : (k mod nFas el < nFas el)%nat) by now apply Nat.mod_upper_bound.
    rewrite HN', HN by assumption. apply rsum_ext. intros m Hm. rewrite EP, EO by assumption. reflexivity.
Qed.

(** *** Points of the matrices and of the solver's quadrature *)
Definition entOf (el : refEl) : Mapping.ent := match el with Line => Mapping.LINE | Quad => Mapping.QUAD4R | Tria => Mapping.TRIA3 | Hex => Mapping.HEX8R | Tet => Mapping.TET4 end.
Definition coords (k : nat) (t : R * R * R) : list R := let '(x, y, z) := t in firstn k [x; y; z].
Definition faceCoords (el : refEl) (c1 c2 : R) : list R := match dim el with 2%nat => [c1] | _ => [c1; c2] end.
Definition refToPhyR := Mapping.refToPhy 0 1 Rplus Rminus Rmult.
Lemma points_el el fa c1 c2 : el <> Line -> (fa < nFas el)%nat -> Mapping.faToVolRef 0 1 Rplus Rminus Rmult fa (entOf el) (faceCoords el c1 c2) = Ok (coords (dim el) (faToEl el fa c1 c2)).
Proof.
  intros NL Hfa. destruct el; [contradiction| | | |]; cbn [nFas] in Hfa; do 6 (try (destruct fa as [|fa]; [cbv; f_equal; repeat (apply f_equal2; [ring|]); reflexivity|])); cbn in Hfa; lia.
Qed.
Lemma points_fa el ve c1 c2 : el <> Line -> (ve < nOri el)%nat ->
  Mapping.faLocToFaNei 0 1 Rminus (entOf el) (faceCoords el c1 c2) ve = Ok (faceCoords el (fst (faToFa el ve c1 c2)) (snd (faToFa el ve c1 c2))).
Proof. intros NL Hv. destruct el; [contradiction| | | |]; cbn [nOri] in Hv; do 3 (try (destruct ve as [|ve]; [reflexivity|])); cbn in Hv; lia. Qed.
(** the quadrature points of the solver, for the face of an element and for the adjacent element's side, are those of the matrices *)
Theorem C84_points el fa ve c1 c2 : el <> Line -> (fa < nFas el)%nat -> (ve < nOri el)%nat ->
  Mapping.faToVolRef 0 1 Rplus Rminus Rmult fa (entOf el) (faceCoords el c1 c2) = Ok (coords (dim el) (faToEl el fa c1 c2)) /\
  (q <- Mapping.faLocToFaNei 0 1 Rminus (entOf el) (faceCoords el c1 c2) ve ;; Mapping.faToVolRef 0 1 Rplus Rminus Rmult fa (entOf el) q) =
    Ok (coords (dim el) (faToEl el fa (fst (faToFa el ve c1 c2)) (snd (faToFa el ve c1 c2)))).
Proof. intros NL Hfa Hv. split; [now apply points_el|]. rewrite points_fa by assumption. cbn [bind]. now apply points_el. Qed.
Lemma cmapM_map {A B} (f : A -> res B) (g : A -> B) l : (forall a, In a l -> f a = Ok (g a)) -> Comm.mapM f l = Ok (map g l).
Proof. induction l as [|a l IH]; intros H; [reflexivity|]. cbn [Comm.mapM map]. rewrite H by now left. rewrite IH by (intros; apply H; now right). reflexivity. Qed.
(** the two sides of a shared face: the matrices combine the values of both elements at the same points *)
Theorem C84_shared el tau L N fL fN ve c1 c2 : el <> Line -> let t := entOf el in Props_Map.proper 0 Rplus Rminus Rmult Props_FwaveR.rltb t L -> Props_Map.proper 0 Rplus Rminus Rmult Props_FwaveR.rltb t N ->
  length tau = dim el -> (fL < nFas el)%nat -> (fN < nFas el)%nat -> Props_Map.share 0 Rplus Rminus Rmult Props_FwaveR.rltb t tau L N fL fN ->
  (ve < nOri el)%nat -> (el = Tet -> Props_Map.shift Rplus tau (nth ve (Props_Map.faceVs 0 t N fN) []) = nth 0 (Props_Map.faceVs 0 t L fL) []) ->
  exists x, refToPhyR t N (coords (dim el) (faToEl el fN (fst (faToFa el ve c1 c2)) (snd (faToFa el ve c1 c2)))) = Ok x /\
    refToPhyR t L (coords (dim el) (faToEl el fL c1 c2)) = Ok (Props_Map.shift Rplus tau x).
Proof.
  intros NL t PL PN LT HL HN SH HV V.
  assert (Dt : Mapping.nDim t = dim el) by (destruct el; reflexivity). assert (Ft : Mapping.nFas t = nFas el) by (destruct el; reflexivity). assert (Ot : Mapping.nVeOpts t = nOri el) by (destruct el; reflexivity).
  destruct (Props_Map.C60_coincide _ _ _ _ _ _ _ _ _ _ Props_FwaveR.R_ofield t tau L N fL fN ve [faceCoords el c1 c2] 0) as (o & x & E & _ & H1 & H2); rewrite ?Dt, ?Ft, ?Ot; try assumption.
  - destruct el; [contradiction| | | |]; cbn; auto.
  - intros X. apply V. destruct el; try discriminate. reflexivity.
  - constructor; [|constructor]. destruct el; [contradiction| | | |]; reflexivity.
  - cbn. lia.
  - exists x. rewrite Ft, Ot in H1. unfold Mapping.facePts in E. rewrite Ft, Ot in E.
    assert (El : Comm.mapM (fun fa => Comm.mapM (Mapping.faToVolRef 0 1 Rplus Rminus Rmult fa t) [faceCoords el c1 c2]) (seq 0 (nFas el)) = Ok (map (fun fa => [coords (dim el) (faToEl el fa c1 c2)]) (seq 0 (nFas el)))).
    { apply cmapM_map. intros fa Hfa. apply in_seq in Hfa. cbn [Comm.mapM]. unfold t. rewrite points_el by (auto; lia). reflexivity. }
    assert (En : Comm.mapM (fun fv => Comm.mapM (fun pt => q <- Mapping.faLocToFaNei 0 1 Rminus t pt (snd fv) ;; Mapping.faToVolRef 0 1 Rplus Rminus Rmult (fst fv) t q) [faceCoords el c1 c2]) (list_prod (seq 0 (nFas el)) (seq 0 (nOri el))) =
      Ok (map (fun fv => [coords (dim el) (faToEl el (fst fv) (fst (faToFa el (snd fv) c1 c2)) (snd (faToFa el (snd fv) c1 c2)))]) (list_prod (seq 0 (nFas el)) (seq 0 (nOri el))))).
    { apply cmapM_map. intros (fa & v) Hfa. apply in_prod_iff in Hfa. rewrite !in_seq in Hfa. cbn [Comm.mapM fst snd]. unfold t. rewrite points_fa by (auto; lia). cbn [bind]. rewrite points_el by (auto; lia). reflexivity. }
    rewrite El in E. cbn [bind] in E. rewrite En in E. cbn [bind] in E. injection E as <-. clear El En.
    split.
    + rewrite <- H1. unfold refToPhyR. f_equal. rewrite app_nth2 by (rewrite map_length, seq_length; lia). rewrite map_length, seq_length.
      replace (nFas el + fN * nOri el + ve - nFas el)%nat with (fN * nOri el + ve)%nat by lia.
      assert (G : nth (fN * nOri el + ve) (list_prod (seq 0 (nFas el)) (seq 0 (nOri el))) (0, 0)%nat = (fN, ve)).
      { clear - HN HV. destruct el; cbn [nFas nOri] in *; do 6 (try (destruct fN as [|fN]; [do 3 (try (destruct ve as [|ve]; [reflexivity|])); cbn in HV; lia|])); cbn in HN; lia. }
      rewrite (nth_indep _ [] ((fun fv => [coords (dim el) (faToEl el (fst fv) (fst (faToFa el (snd fv) c1 c2)) (snd (faToFa el (snd fv) c1 c2)))]) (0, 0)%nat)).
      2:{ rewrite map_length, prod_length, !seq_length. nia. }
      rewrite (map_nth (fun fv => [coords (dim el) (faToEl el (fst fv) (fst (faToFa el (snd fv) c1 c2)) (snd (faToFa el (snd fv) c1 c2)))])), G. reflexivity.
    + rewrite <- H2. unfold refToPhyR. f_equal. rewrite app_nth1 by (rewrite map_length, seq_length; lia).
      rewrite (nth_indep _ [] ((fun fa => [coords (dim el) (faToEl el fa c1 c2)]) 0%nat)) by (rewrite map_length, seq_length; lia). rewrite (map_nth (fun fa => [coords (dim el) (faToEl el fa c1 c2)])), seq_nth by lia. reflexivity.
Qed.

(** *** The solver's matrices *)
Definition refOf (e : elType) : refEl := match e with QUAD4R => Quad | TRIA3 => Tria | HEX8R => Hex | TET4 => Tet end.
Lemma refOf_NL e : refOf e <> Line. Proof. destruct e; discriminate. Qed.
Lemma refOf_md e o : nModes e o = nMds (refOf e) o. Proof. destruct e; reflexivity. Qed.
Lemma refOf_mdFa e o : nModesFa e o = nMds (faEl (refOf e)) o. Proof. destruct e; reflexivity. Qed.
Lemma refOf_dim e : nDis e = dim (refOf e). Proof. destruct e; reflexivity. Qed.
Lemma refOf_fas e : nElFas e = nFas (refOf e). Proof. destruct e; reflexivity. Qed.
Lemma refOf_fluxN e : nFluxN e = (nOri (refOf e) * nFas (refOf e))%nat. Proof. destruct e; reflexivity. Qed.
Lemma sum_rsum k f : AderSpec.sum algR k f = rsum k f. Proof. induction k as [|k IH]; cbn; [reflexivity|]. now rewrite IH. Qed.
(** an array of matrices *)
Definition stored (r c : nat) (m : matrix) (l : list R) : Prop := length l = (r * c)%nat /\ forall i j, (i < r)%nat -> (j < c)%nat -> ent algR c l i j = m i j.
Lemma row_length r c (m : matrix) : length (flat_map (fun i => map (m i) (seq 0 c)) (seq 0 r)) = (r * c)%nat.
Proof. apply flat_map_const_length. intros. now rewrite map_length, seq_length. Qed.
Lemma raw_length k r c m : length (rawOf k r c m) = (k * (r * c))%nat. Proof. apply flat_map_const_length. intros. apply row_length. Qed.
Lemma nth_skipn {X} (l : list X) a j d : nth j (skipn a l) d = nth (a + j) l d.
Proof. revert l. induction a as [|a IH]; intros l; [reflexivity|]. destruct l as [|x l]; [now destruct j|]. cbn. apply IH. Qed.
Lemma nth_firstn {X} (l : list X) a j d : (j < a)%nat -> nth j (firstn a l) d = nth j l d.
Proof. revert l j. induction a as [|a IH]; intros l j H; [lia|]. destruct l as [|x l]; [now destruct j|]. destruct j as [|j]; [reflexivity|]. cbn. apply IH. lia. Qed.
Lemma mod_at a b m : (b < m)%nat -> ((a * m + b) mod m)%nat = b.
Proof. intros H. rewrite (Nat.add_comm (a * m)), Nat.mod_add, Nat.mod_small by lia. reflexivity. Qed.
Lemma div_at a b m : (b < m)%nat -> ((a * m + b) / m)%nat = a.
Proof. intros H. rewrite Nat.div_add_l, Nat.div_small by lia. lia. Qed.
Lemma cut_stored k r c m d : (d < k)%nat -> stored r c (m d) (nth d (cut k (r * c) (rawOf k r c m)) []).
Proof.
  intros Hd. unfold cut. rewrite nth_map_seq by exact Hd. assert (L : (d * (r * c) + r * c <= k * (r * c))%nat) by nia. split.
  - rewrite firstn_length, skipn_length, raw_length. lia.
  - intros i j Hi Hj. unfold ent. cbn [aZero algR]. assert (B : (i * c + j < r * c)%nat) by nia. rewrite nth_firstn by exact B. rewrite nth_skipn. unfold rawOf.
    assert (Z : (r * c <> 0)%nat) by lia. rewrite (nth_flat_map _ (r * c)) by (try (intros; apply row_length); lia).
    rewrite mod_at, div_at by exact B. cbn [Nat.add]. rewrite (nth_flat_map _ c) by (try (intros; now rewrite map_length, seq_length); lia). rewrite mod_at, div_at by exact Hj.
    cbn [Nat.add]. now rewrite nth_map_seq.
Qed.

Section Kernels.
Variable cf : conf.
Local Notation el := (refOf (cEl cf)).
Local Notation n := (cSp cf).
Local Notation nMd := (nModes (cEl cf) (cSp cf)).
Local Notation nMdFa := (nModesFa (cEl cf) (cSp cf)).
Local Notation nFa := (nElFas (cEl cf)).
Local Notation nDi := (nDis (cEl cf)).
Local Notation nE := (nQtsE (cEl cf)).
Local Notation sq y := (norm2 el (modeAt el n y)).

(** the solver's matrices are loaded from the arrays which EDGEpre generates *)
Definition refMats (stT st fLN fT : list (list R)) : Prop := exists sT sV fL fN fTm, preMats el n sT sV fL fN fTm /\
  getStiff nDi nMd (rawOf nDi nMd nMd sT) = Ok stT /\ getStiff nDi nMd (rawOf nDi nMd nMd sV) = Ok st /\
  getFlux nFa (nFluxN (cEl cf)) nMd nMdFa (rawOf nFa nMd nMdFa fL) (rawOf (nFluxN (cEl cf)) nMd nMdFa fN) (rawOf nFa nMdFa nMd fTm) = Ok (fLN, fT).
(** the sizes agree: loading succeeds, for every order *)
Theorem C84_load : exists stT st fLN fT, refMats stT st fLN fT.
Proof.
  destruct (preMats_ex el n (refOf_NL _)) as (sT & sV & fL & fN & fT & P). unfold refMats, getStiff, getFlux.
  assert (C : forall a b, a = b -> check (a =? b)%nat = Ok tt) by (intros a b ->; unfold check; now rewrite Nat.eqb_refl).
  do 4 eexists. exists sT, sV, fL, fN, fT. split; [exact P|]. rewrite !C by (rewrite raw_length; lia). cbn [bind]. auto.
Qed.
Lemma refMats_stored stT st fLN fT : refMats stT st fLN fT -> exists sT sV fL fN fTm, preMats el n sT sV fL fN fTm /\
  (forall di, (di < dim el)%nat -> stored nMd nMd (sT di) (nth di stT []) /\ stored nMd nMd (sV di) (nth di st [])) /\
  (forall fa, (fa < nFas el)%nat -> stored nMd nMdFa (fL fa) (nth fa fLN []) /\ stored nMdFa nMd (fTm fa) (nth fa fT [])) /\
  (forall i, (i < nFluxN (cEl cf))%nat -> stored nMd nMdFa (fN i) (nth (nFa + i) fLN [])) /\ length stT = nDi /\ length st = nDi /\ length fLN = (nFa + nFluxN (cEl cf))%nat /\ length fT = nFa.
Proof.
  intros (sT & sV & fL & fN & fTm & P & E1 & E2 & E3). exists sT, sV, fL, fN, fTm. split; [exact P|]. unfold getStiff, getFlux in *.
  assert (C : forall a b, a = b -> check (a =? b)%nat = Ok tt) by (intros a b ->; unfold check; now rewrite Nat.eqb_refl).
  rewrite C in E1, E2 by (rewrite raw_length; lia). rewrite !C in E3 by (rewrite raw_length; lia). cbn [bind] in *. injection E1 as <-. injection E2 as <-. injection E3 as <- <-.
  assert (LS : forall k len l, length (cut k len l) = k) by (intros; unfold cut; now rewrite map_length, seq_length).
  split; [|split; [|split]].
  - intros di Hd. rewrite <- refOf_dim in Hd. split; now apply cut_stored.
  - intros fa Hfa. rewrite <- refOf_fas in Hfa. split; [|now apply cut_stored]. rewrite app_nth1 by now rewrite LS. now apply cut_stored.
  - intros i Hi. rewrite app_nth2 by (rewrite LS; lia). rewrite LS. replace (nFa + i - nFa)%nat with i by lia. now apply cut_stored.
  - rewrite app_length, !LS. auto.
Qed.

(** degrees of the modes behind the first ones *)
Lemma low_entry di l y k : hier el -> (di < dim el)%nat -> (l < nMds el n)%nat -> (deg (modeAt el n l) <= k)%nat -> (k <= deg (modeAt el n y))%nat -> (y < nMds el n)%nat ->
  forall d, isder di (bas el n l) d -> intEl el (fun a b c => bas el n y a b c * d a b c) 0.
Proof.
  intros Hh Hd Hl Dl Dy Hy d D. destruct (der_low el di (modeAt el n l) Hh Hd) as (g & G & W). rewrite (nrm_ok el n _ (modeAt_ok el n l Hl)) in W.
  refine (intEl_ext el _ _ _ _ (low_orth el (modeAt el n y) k g Hh _ _)).
  - intros. unfold bas. f_equal. apply (partial_unique (bas el n l) di x y0 z); [apply G|apply D].
  - rewrite (nrm_ok el n _ (modeAt_ok el n y Hy)). exact Dy.
  - refine (wp_weaken el _ _ g _ W). unfold lowE. intros. lia.
Qed.
Lemma hier_ck : (hier el /\ forall k, nModesCk (cEl cf) n k = nMds el (n - k)) \/ (forall k, nModesCk (cEl cf) n k = nMd).
Proof. destruct (cEl cf); cbn; auto. Qed.
Lemma deg_lt k l : hier el -> (l < nMds el (n - k))%nat -> (l < nMds el n)%nat /\ (deg (modeAt el n l) < n - k)%nat.
Proof. intros Hh H. pose proof (nMds_le el (n - k) n Hh ltac:(lia)). split; [lia|]. rewrite (modeAt_any el (n - k) n l Hh) by (auto; lia). now apply modeAt_deg. Qed.

(** what the kernels' proofs assume: derivatives lower the degree, the volume integration ignores the modes of the highest degree *)
Theorem C84_lowers stT st fLN fT : refMats stT st fLN fT -> (cTi cf <= S n)%nat ->
  lowersAll algR cf (predK algR cf stT) /\ lowers algR cf (predK algR cf stT) /\ testsLow algR cf st /\ sized nDi (nMd * nMd) stT /\ sized nDi (nMd * nMd) st /\ fluxMatrices cf fLN fT.
Proof.
  intros HR HT. destruct (refMats_stored _ _ _ _ HR) as (sT & sV & fL & fN & fTm & PM & S1 & S2 & S3 & L1 & L2 & L3 & L4).
  destruct (preMats_entries _ _ _ _ _ _ _ PM) as (stiff & proj0 & ori & HS & _).
  assert (A : lowersAll algR cf (predK algR cf stT)).
  { intros de di l y Hde Hdi Hl Hy. unfold predK. cbn [aZero aOpp algR]. rewrite refOf_dim in Hdi. destruct hier_ck as [(Hh & Ck)|Ck]; [|rewrite Ck in Hy; lia]. rewrite !Ck, refOf_md in *.
    destruct (deg_lt (de - 1) l Hh Hl) as (Hl' & Dl). pose proof (modeAt_deg_ge el (n - de) n y Hh ltac:(lia) Hy) as Dy.
    destruct (S1 di Hdi) as ((_ & E) & _). rewrite E by lia. destruct (HS di Hdi) as (S & V). rewrite (proj1 (V l y Hl' ltac:(lia))).
    destruct (S y l ltac:(lia) Hl') as (d & D & I). rewrite (intEl_unique el _ _ _ I (low_entry di l y (n - de) Hh Hdi Hl' ltac:(lia) Dy ltac:(lia) d D)). ring. }
  split; [exact A|]. split; [intros de di l y Hde; apply A; lia|]. split; [|split; [|split]].
  - intros di l y Hdi Hl Hy. unfold volK. cbn [aZero algR]. rewrite refOf_dim in Hdi. destruct hier_ck as [(Hh & Ck)|Ck]; [|rewrite Ck in Hl; lia]. rewrite !Ck, refOf_md in *.
    destruct (S1 di Hdi) as (_ & (_ & E)). rewrite E by lia. destruct (HS di Hdi) as (S & V). rewrite (proj2 (V l y ltac:(lia) Hy)).
    pose proof (modeAt_deg_ge el (n - 1) n l Hh ltac:(lia) Hl) as Dl. pose proof (modeAt_deg el n y Hh Hy) as Dy.
    destruct (S l y ltac:(lia) Hy) as (d & D & I). rewrite (intEl_unique el _ _ _ I (low_entry di y l (n - 1) Hh Hdi Hy ltac:(lia) Dl ltac:(lia) d D)). ring.
  - split; [exact L1|]. intros di Hd. rewrite refOf_dim in Hd. now destruct (S1 di Hd) as ((X & _) & _).
  - split; [exact L2|]. intros di Hd. rewrite refOf_dim in Hd. now destruct (S1 di Hd) as (_ & (X & _)).
  - split; split; [exact L3| |exact L4|].
    + intros i Hi. destruct (Nat.lt_ge_cases i nFa) as [C|C]; [rewrite refOf_fas in C; now destruct (S2 i C) as ((X & _) & _)|]. replace i with (nFa + (i - nFa))%nat by lia. destruct (S3 (i - nFa)%nat ltac:(lia)) as (X & _). exact X.
    + intros fa Hfa. rewrite refOf_fas in Hfa. now destruct (S2 fa Hfa) as (_ & (X & _)).
Qed.

(** *** The predictor *)
(** quantity [x] as a function on the reference element *)
Definition field (q : nat -> nat -> R) (x : nat) (a b c : R) : R := rsum nMd (fun l => q x l * bas el n l a b c).
(** the kernels' operator is the exact one: the negative sum of the Jacobians times the derivatives *)
Theorem C84_operator stT st fLN fT starE starA srcA rfs s x a b c : refMats stT st fLN fT -> cRms cf = 0%nat -> (x < nE)%nat ->
  exists g : nat -> nat -> R, (forall di j, (di < nDi)%nat -> partial (field (fst s) j) di a b c (g di j)) /\
    field (fst (opOf algR cf Rplus (predK algR cf stT) starE starA srcA rfs s)) x a b c = - rsum nDi (fun di => rsum nE (fun j => ent algR nE (nth di starE []) x j * g di j)).
Proof.
  intros HR R0 Hx. destruct (refMats_stored _ _ _ _ HR) as (sT & sV & fL & fN & fTm & PM & S1 & _).
  exists (fun di j => rsum nMd (fun l => fst s j l * rsum nMd (fun k => sT di l k * bas el n k a b c))). split.
  - intros di j Hd. rewrite refOf_dim in Hd. apply (partial_rsum nMd (fun l a b c => fst s j l * bas el n l a b c)). intros l Hl. apply partial_scal. rewrite !refOf_md in *. now apply (C84_derivative el n sT sV fL fN fTm PM).
  - unfold field, opOf, powOf. cbn [pow op fst]. rewrite (rsum_ext nMd _ (fun y => rsum nDi (fun di => rsum nE (fun j => rsum nMd (fun l => - (ent algR nE (nth di starE []) x j * (fst s j l * (sT di l y * bas el n y a b c)))))))).
    2:{ intros y Hy. unfold opE. cbn [aAdd aZero algR]. rewrite R0. cbn [AderSpec.sum aZero algR].
        replace (if (x <? nQtsM (cEl cf))%nat then 0 else 0) with 0 by now destruct (x <? nQtsM (cEl cf))%nat. rewrite Rplus_0_r, sum_rsum, <- rsum_mulr. apply rsum_ext. intros di Hd. rewrite sum_rsum, <- rsum_mulr. apply rsum_ext. intros j Hj.
        unfold grad. cbn [aMul algR]. rewrite sum_rsum, <- rsum_mul, <- rsum_mulr. apply rsum_ext. intros l Hl. unfold predK. cbn [aOpp algR]. rewrite refOf_dim in Hd. destruct (S1 di Hd) as ((_ & E) & _). rewrite E by assumption. ring. }
    rewrite rsum_swap. replace (- rsum nDi (fun di => rsum nE (fun j => ent algR nE (nth di starE []) x j * rsum nMd (fun l => fst s j l * rsum nMd (fun k => sT di l k * bas el n k a b c)))))
      with (-1 * rsum nDi (fun di => rsum nE (fun j => ent algR nE (nth di starE []) x j * rsum nMd (fun l => fst s j l * rsum nMd (fun k => sT di l k * bas el n k a b c))))) by ring.
    rewrite <- rsum_mul. apply rsum_ext. intros di Hd. rewrite rsum_swap, <- rsum_mul. apply rsum_ext. intros j Hj. rewrite rsum_swap, <- !rsum_mul. apply rsum_ext. intros l Hl. rewrite <- !rsum_mul. apply rsum_ext. intros k Hk. ring.
Qed.
Lemma dlim_rsum k (f : nat -> R -> R) d (c : nat -> R) t : (forall i, (i < k)%nat -> derivable_pt_lim (f i) t (d i)) -> derivable_pt_lim (fun t => rsum k (fun i => f i t * c i)) t (rsum k (fun i => d i * c i)).
Proof.
  induction k as [|k IH]; intros H; cbn [rsum]; [apply derivable_pt_lim_const|]. apply (derivable_pt_lim_plus (fun t => rsum k (fun i => f i t * c i)) (fun t => f k t * c k)); [apply IH; intros; apply H; lia|].
  apply (dlim_ext (fun t => c k * f k t)); [intros; ring|]. rewrite Rmult_comm. apply (derivable_pt_lim_scal (f k)). apply H. lia.
Qed.
(** For triangles and tetrahedrons, the prediction of the Cauchy-Kowalevski procedure is the exact solution of the partial differential equations with the element's
    initial state, at all points and times. *)
Theorem C84_pde stT st fLN fT starE starA srcA rfs dE (q : nat -> @state R) : refMats stT st fLN fT ->
  (cEl cf = TRIA3 \/ cEl cf = TET4) -> cTi cf = n -> (1 <= n)%nat -> cRms cf = 0%nat -> sized (cTi cf) (nE * nMd * cCrs cf) dE ->
  (forall d, (d < cTi cf)%nat -> rep algR cf nE nMd (nth d dE []) (fun z => fst (powOf algR cf Rplus (predK algR cf stT) starE starA srcA rfs d (q z)))) ->
  exists P I, computes cf dE P I /\ forall z x a b c, (x < nE)%nat ->
    field (fst (P 0 z)) x a b c = field (fst (q z)) x a b c /\
    forall t, exists g : nat -> nat -> R, (forall di j, (di < nDi)%nat -> partial (field (fst (P t z)) j) di a b c (g di j)) /\
      derivable_pt_lim (fun t => field (fst (P t z)) x a b c) t (- rsum nDi (fun di => rsum nE (fun j => ent algR nE (nth di starE []) x j * g di j))) /\
      derivable_pt_lim (fun t => field (fst (I t z)) x a b c) t (field (fst (P t z)) x a b c).
Proof.
  intros HR El Ti Hn R0 Sd D. destruct (C84_lowers _ _ _ _ HR) as (Low & _); [lia|].
  destruct (C75_prediction_exact cf stT starE starA srcA rfs dE q El Ti Hn R0 Low Sd D) as (P & I & C & V). exists P, I. split; [exact C|]. intros z x a b c Hx. split.
  - apply rsum_ext. intros l Hl. now rewrite (proj1 (V z x l Hl)).
  - intros t. destruct (C84_operator stT st fLN fT starE starA srcA rfs (P t z) x a b c HR R0 Hx) as (g & G & E). exists g. split; [exact G|]. split.
    + rewrite <- E. apply (dlim_rsum nMd (fun l t => fst (P t z) x l)). intros l Hl. destruct (V z x l Hl) as (_ & _ & W). apply W.
    + apply (dlim_rsum nMd (fun l t => fst (I t z) x l)). intros l Hl. destruct (V z x l Hl) as (_ & _ & W). apply W.
Qed.

(** *** Volume and surface integrals *)
(** the derivatives of the volume kernel are integrals against the derivatives of the test functions *)
Theorem C84_volume_kernel stT st fLN fT di q x y d : refMats stT st fLN fT -> (di < nDi)%nat -> (y < nMd)%nat -> isder di (bas el n y) d ->
  intEl el (fun a b c => field q x a b c * d a b c) (grad algR cf (volK algR cf st) di q x y * sq y).
Proof.
  intros HR Hd Hy D. destruct (refMats_stored _ _ _ _ HR) as (sT & sV & fL & fN & fTm & PM & S1 & _). rewrite refOf_dim in Hd. destruct (S1 di Hd) as (_ & (_ & E)).
  unfold grad, volK. cbn [aMul algR]. rewrite sum_rsum, <- rsum_mulr. refine (intEl_ext el (fun a b c => rsum nMd (fun l => q x l * (bas el n l a b c * d a b c))) _ _ _ _).
  - intros. unfold field. rewrite <- rsum_mulr. apply rsum_ext. intros. ring.
  - apply (intEl_sum el nMd (fun l a b c => q x l * (bas el n l a b c * d a b c))). intros l Hl. rewrite E by assumption. rewrite Rmult_assoc. apply (intEl_scal el _ (fun a b c => bas el n l a b c * d a b c)).
    rewrite !refOf_md in *. now apply (C84_volume el n sT sV fL fN fTm PM).
Qed.
(** the surface kernels integrate the fluxes of the traces against the traces of the test functions: own trace and that of the adjacent element, taken at the same points (C84_shared) *)
Definition fluxOf (fs : list R) (tr : nat -> R -> R -> R -> R) (x : nat) (a b c : R) : R := rsum nE (fun j => ent algR nE fs x j * tr j a b c).
Lemma surf_int stT st fLN fT fs F (W : nat -> matrix) fa fi q x y (trc : nat -> R -> R -> R -> R) : refMats stT st fLN fT -> (fa < nFas el)%nat -> (y < nMd)%nat -> stored nMd nMdFa (W fi) F ->
  forall fTm, stored nMdFa nMd (fTm fa) (nth fa fT []) ->
  (forall l, (l < nMd)%nat -> intEl (faEl el) (fun a b c => trc l a b c * onFace el fa (bas el n y) a b c) (rsum nMdFa (fun m => W fi l m * fTm fa m y) * sq y)) ->
  intEl (faEl el) (fun a b c => fluxOf fs (fun j a b c => rsum nMd (fun l => q j l * trc l a b c)) x a b c * onFace el fa (bas el n y) a b c) (surf algR cf fs F (nth fa fT []) q x y * sq y).
Proof.
  intros _ Hfa Hy (_ & SF) fTm (_ & ST) H.
  replace (surf algR cf fs F (nth fa fT []) q x y * sq y) with (rsum nE (fun j => rsum nMd (fun l => ent algR nE fs x j * (q j l * (rsum nMdFa (fun m => W fi l m * fTm fa m y) * sq y))))).
  - refine (intEl_ext _ (fun a b c => rsum nE (fun j => rsum nMd (fun l => ent algR nE fs x j * (q j l * (trc l a b c * onFace el fa (bas el n y) a b c))))) _ _ _ _).
    + intros a b c. unfold fluxOf. rewrite <- rsum_mulr. apply rsum_ext. intros j _. rewrite <- rsum_mul, <- rsum_mulr. apply rsum_ext. intros l _. ring.
    + apply (intEl_sum _ nE (fun j a b c => rsum nMd (fun l => ent algR nE fs x j * (q j l * (trc l a b c * onFace el fa (bas el n y) a b c))))). intros j _.
      apply (intEl_sum _ nMd (fun l a b c => ent algR nE fs x j * (q j l * (trc l a b c * onFace el fa (bas el n y) a b c)))). intros l Hl.
      apply (intEl_scal _ _ (fun a b c => q j l * (trc l a b c * onFace el fa (bas el n y) a b c))). apply (intEl_scal _ _ (fun a b c => trc l a b c * onFace el fa (bas el n y) a b c)). now apply H.
  - unfold surf, faceInt. cbn [aMul algR]. rewrite (sum_rsum nMdFa). rewrite <- (rsum_mulr nMdFa).
    rewrite (rsum_ext nMdFa _ (fun m => rsum nE (fun j => rsum nMd (fun l => ent algR nE fs x j * (q j l * (W fi l m * fTm fa m y * sq y)))))).
    2:{ intros m Hm. rewrite sum_rsum, <- !rsum_mulr. apply rsum_ext. intros j _. rewrite sum_rsum, <- rsum_mul, <- !rsum_mulr. apply rsum_ext. intros l Hl. rewrite SF, ST by assumption. ring. }
    rewrite (rsum_swap nMdFa nE). apply rsum_ext. intros j _. rewrite (rsum_swap nMdFa nMd). apply rsum_ext. intros l _. rewrite <- !rsum_mulr, <- !rsum_mul. reflexivity.
Qed.
Theorem C84_surface_local stT st fLN fT fs fa q x y : refMats stT st fLN fT -> (fa < nFa)%nat -> (y < nMd)%nat ->
  intEl (faEl el) (fun a b c => fluxOf fs (fun j => onFace el fa (field q j)) x a b c * onFace el fa (bas el n y) a b c) (surf algR cf fs (nth fa fLN []) (nth fa fT []) q x y * sq y).
Proof.
  intros HR Hfa Hy. destruct (refMats_stored _ _ _ _ HR) as (sT & sV & fL & fN & fTm & PM & S1 & S2 & _). rewrite refOf_fas in Hfa. destruct (S2 fa Hfa) as (SL & ST).
  refine (intEl_ext _ _ _ _ _ (surf_int stT st fLN fT fs (nth fa fLN []) fL fa fa q x y (fun l => onFace el fa (bas el n l)) HR Hfa Hy SL fTm ST _)).
  - intros a b c. unfold fluxOf. f_equal. apply rsum_ext. intros j _. f_equal. unfold field. now rewrite onFace_rsum.
  - intros l Hl. rewrite refOf_mdFa. rewrite refOf_md in *. now apply (C84_surface el n sT sV fL fN fTm (refOf_NL _) PM).
Qed.
Theorem C84_surface_neigh stT st fLN fT fs fa ve fn q x y : refMats stT st fLN fT -> (fa < nFa)%nat -> (fn < nFa)%nat -> (ve < nOri el)%nat -> (y < nMd)%nat ->
  intEl (faEl el) (fun a b c => fluxOf fs (fun j => turned el ve (onFace el fn (field q j))) x a b c * onFace el fa (bas el n y) a b c)
    (surf algR cf fs (nth (nFa + (ve * nFa + fn)) fLN []) (nth fa fT []) q x y * sq y).
Proof.
  intros HR Hfa Hfn Hv Hy. destruct (refMats_stored _ _ _ _ HR) as (sT & sV & fL & fN & fTm & PM & S1 & S2 & S3 & _). rewrite refOf_fas in Hfa, Hfn. destruct (S2 fa Hfa) as (_ & ST).
  assert (HI : (ve * nFa + fn < nFluxN (cEl cf))%nat) by (rewrite refOf_fluxN, refOf_fas; nia). pose proof (S3 _ HI) as SN.
  refine (intEl_ext _ _ _ _ _ (surf_int stT st fLN fT fs _ fN fa (ve * nFa + fn)%nat q x y (fun l => turned el ve (onFace el fn (bas el n l))) HR Hfa Hy SN fTm ST _)).
  - intros a b c. unfold fluxOf. f_equal. apply rsum_ext. intros j _. f_equal. unfold turned, field. now rewrite onFace_rsum.
  - intros l Hl. rewrite refOf_mdFa, refOf_fas. rewrite refOf_md in *. now apply (C84_neighbour el n sT sV fL fN fTm (refOf_NL _) PM).
Qed.
End Kernels.

(** *** Conservation of momentum with EDGEpre's matrices *)
Lemma modeAt_0 el n : (1 <= n)%nat -> modeAt el n 0 = (0, 0, 0)%nat. Proof. intros H. destruct n as [|n]; [lia|]. now destruct el. Qed.
Lemma hom_0 a u v : hom 0 a u v = 1. Proof. unfold hom. cbn. rewrite Nat.add_0_r, !C_0. ring. Qed.
Lemma bas_0 el n x y z : (1 <= n)%nat -> bas el n 0 x y z = 1. Proof. intros H. unfold bas. rewrite modeAt_0 by exact H. destruct el; cbn [phi]; rewrite !hom_0; ring. Qed.
Lemma nMds_pos el n : (1 <= n)%nat -> (0 < nMds el n)%nat. Proof.
  intros H. assert (A : forall e, hier e -> (0 < nMds e n)%nat). { intros e He. pose proof (nMds_le e 1 n He H) as L. assert (E : nMds e 1 = 1%nat) by (destruct e; cbn in He; tauto || reflexivity). lia. }
  destruct el; try (now apply A); destruct n; cbn; lia.
Qed.
Theorem C84_reference cf U mesh : (1 <= cSp cf)%nat -> refMats cf (uStT U) (uSt U) (uLN U) (uFT U) ->
  (forall el fa ne v f, (el < uN U)%nat -> (fa < nElFas (cEl cf))%nat -> mesh el fa = Inner ne v f -> (f < nElFas (cEl cf))%nat /\ (v < nOri (refOf (cEl cf)))%nat) -> reference cf U mesh.
Proof.
  intros Hn HR HM. destruct (refMats_stored _ _ _ _ _ HR) as (sT & sV & fL & fN & fTm & PM & S1 & S2 & S3 & _). unfold reference, intF, projF.
  clear HR. rewrite ?refOf_md, ?refOf_mdFa, ?refOf_dim, ?refOf_fas in *. pose proof (refOf_NL (cEl cf)) as NL. remember (refOf (cEl cf)) as e eqn:He. remember (cSp cf) as n eqn:Hsp.
  pose proof (nMds_pos e n Hn) as P0. pose proof (nMds_pos (faEl e) n Hn) as P1.
  destruct (preMats_entries _ _ _ _ _ _ _ PM) as (stiff & proj0 & ori & HS & HP & HO & HN).
  assert (M : forall fa m, (fa < nFas e)%nat -> (m < nMds (faEl e) n)%nat -> proj0 fa 0%nat m = if (m =? 0)%nat then nb (faEl e) n 0 else 0).
  { intros fa m Hfa Hm. destruct (HP fa Hfa) as (P & _). apply (intEl_unique (faEl e) _ _ _ (P 0%nat m P0 Hm)). pose proof (bas_orth (faEl e) n m 0 Hm P1) as B.
    replace (if (m =? 0)%nat then nb (faEl e) n 0 else 0) with (if (m =? 0)%nat then nb (faEl e) n m else 0) by (destruct (Nat.eqb_spec m 0) as [->|]; reflexivity).
    refine (intEl_ext _ _ _ _ _ B). intros. f_equal. rewrite bas_0 by exact Hn. unfold onFace. destruct (faToEl e fa x y) as ((u & v) & w). cbn. now rewrite bas_0. }
  split; [|split; [|split]].
  - intros di l Hd Hl. destruct (S1 di Hd) as (_ & (_ & E)). rewrite E by assumption.
    assert (D : isder di (bas e n 0) (fun _ _ _ => 0)). { intros a b c. refine (partial_ext (fun _ _ _ => 1) _ di a b c 0 _ _); [intros; now rewrite bas_0|]. destruct di as [|[|di]]; apply derivable_pt_lim_const. }
    pose proof (C84_volume e n _ _ _ _ _ PM di l 0%nat _ Hd Hl P0 D) as I.
    assert (Z : sV di l 0%nat * norm2 e (modeAt e n 0) = 0) by (apply (intEl_unique e _ _ _ I); refine (intEl_ext _ _ _ _ _ (intEl_zero e)); intros; ring).
    apply Rmult_integral in Z. destruct Z as [Z|Z]; [exact Z|]. elim (nb_nz e n 0 Z).
  - intros fa m Hfa Hm. destruct (S2 fa Hfa) as (_ & (_ & E)). rewrite E by lia. rewrite (proj2 (proj2 (HP fa Hfa) 0%nat m P0 ltac:(lia))), M by lia. destruct (Nat.eqb_spec m 0); [lia|ring].
  - intros fa fa' Hfa Hfa'. destruct (S2 fa Hfa) as (_ & (_ & E)), (S2 fa' Hfa') as (_ & (_ & E')). rewrite E, E' by assumption. rewrite (proj2 (proj2 (HP fa Hfa) 0%nat 0%nat P0 P1)), (proj2 (proj2 (HP fa' Hfa') 0%nat 0%nat P0 P1)), !M by assumption. reflexivity.
  - intros el fa ne v f l Hel Hfa Em Hl. destruct (HM el fa ne v f Hel Hfa Em) as (Hf & Hv). destruct (S2 f Hf) as ((_ & E) & _). rewrite E by assumption.
    assert (HI : (v * nFas e + f < nFluxN (cEl cf))%nat) by (rewrite refOf_fluxN, <- He; nia). destruct (S3 _ HI) as (_ & E'). rewrite E' by assumption. rewrite (proj1 (proj2 (HP f Hf) l 0%nat Hl P1)).
    pose proof (fluxN_int e n _ _ _ _ _ NL PM v f l 0%nat Hv Hf Hl P1) as I. apply (intEl_unique (faEl e) _ _ _ I).
    assert (J : intEl (faEl e) (turned e v (onFace e f (bas e n l))) (proj0 f l 0%nat)).
    { apply turned_int; auto; [apply (ip_wp _ _ _ (trace_wp e f n _ NL Hf (bas_wp e n l Hl)))|]. refine (intEl_ext _ _ _ _ _ (proj1 (HP f Hf) l 0%nat Hl P1)). intros. rewrite bas_0 by exact Hn. ring. }
    refine (intEl_ext _ _ _ _ _ J). intros. rewrite bas_0 by exact Hn. ring.
Qed.
(** momentum is conserved, without assumptions on the matrices (C79_momentum assumes the properties of C84_reference) *)
Theorem C84_momentum cf U mesh lvl mt det dt hdt q0 Q c i : (1 <= cSp cf)%nat -> (i < nDis (cEl cf))%nat -> refMats cf (uStT U) (uSt U) (uLN U) (uFT U) ->
  (forall el fa ne v f, (el < uN U)%nat -> (fa < nElFas (cEl cf))%nat -> mesh el fa = Inner ne v f -> (v < nOri (refOf (cEl cf)))%nat) ->
  elasticFaces cf U mesh mt det -> meshSym cf U mesh lvl -> closed cf U mesh -> scheme algR cf U mesh lvl dt hdt q0 Q -> synchronized U lvl c ->
  total algR cf U (momentumW cf mt det i) (fun el => Q el (c el)) = total algR cf U (momentumW cf mt det i) q0.
Proof.
  intros Hn Hi HR HV HE HM HC HS Hc. apply (C79_momentum cf U mesh lvl mt det dt hdt q0 Q c i); auto; [rewrite refOf_md; now apply nMds_pos|rewrite refOf_mdFa; now apply nMds_pos|].
  apply C84_reference; auto. intros el fa ne v f Hel Hfa Em. destruct (HM el fa ne v f Hel Hfa Em) as (_ & Hf & _). split; [exact Hf|]. now apply (HV el fa ne v f).
Qed.

(** *** Examples *)
(** triangles of order 2: the derivative of basis function 2, which is 2x+y-1, in direction x is two times basis function 0 *)
Example ex_basis x y z : bas Tria 2 0 x y z = 1 /\ bas Tria 2 1 x y z = 3 * y - 1 /\ bas Tria 2 2 x y z = 2 * x + y - 1.
Proof. unfold bas, modeAt. cbn [modes flat_map level seq map nth Nat.sub app phi]. unfold hom, C. cbn. repeat split; field. Qed.
Example ex_stiffT sT sV fL fN fT : preMats Tria 2 sT sV fL fN fT -> sT 0%nat 2%nat 0%nat = 2.
Proof.
  intros P. assert (L : (2 < nMds Tria 2)%nat) by (cbv; lia). pose proof (C84_derivative Tria 2 _ _ _ _ _ P 0%nat 2%nat (/ 3) (/ 3) 0 ltac:(cbn; lia) L) as D.
  assert (D' : partial (bas Tria 2 2) 0 (/ 3) (/ 3) 0 2).
  { refine (partial_ext (fun x y _ => 2 * x + y - 1) _ 0 _ _ _ _ _ _); [intros; symmetry; apply ex_basis|]. cbn [partial]. apply (dlim_ext (fun x => (/ 3 - 1) + 2 * x)); [intros; ring|].
    assert (E : derivable_pt_lim (fun x => (/ 3 - 1) + 2 * x) (/ 3) (0 + 2 * 1)) by (apply (derivable_pt_lim_plus (fun _ => / 3 - 1) (fun x => 2 * x)); [apply derivable_pt_lim_const|apply (derivable_pt_lim_scal id), derivable_pt_lim_id]).
    now replace (0 + 2 * 1) with 2 in E by ring. }
  pose proof (partial_unique _ _ _ _ _ _ _ D D') as E. change (nMds Tria 2) with 3%nat in E. cbn [rsum] in E. destruct (ex_basis (/ 3) (/ 3) 0) as (B0 & B1 & B2). rewrite B0, B1, B2 in E. lra.
Qed.
(** arrays with given values *)
Lemma rep_ex cf nq k f : exists l, rep algR cf nq k l f.
Proof.
  exists (rawOf nq k (cCrs cf) (fun x y z => f z x y)). split; [rewrite raw_length; lia|]. intros z x y Hz Hx Hy. cbn [aZero algR]. unfold rawOf, pos.
  assert (B : (y * cCrs cf + z < k * cCrs cf)%nat) by nia. replace (x * k * cCrs cf + y * cCrs cf + z)%nat with (x * (k * cCrs cf) + (y * cCrs cf + z))%nat by lia.
  rewrite (nth_flat_map _ (k * cCrs cf)) by (try (intros; apply row_length); nia). rewrite mod_at, div_at by exact B. cbn [Nat.add].
  rewrite (nth_flat_map _ (cCrs cf)) by (try (intros; now rewrite map_length, seq_length); exact B). rewrite mod_at, div_at by exact Hz. cbn [Nat.add]. now rewrite nth_map_seq.
Qed.
Lemma list_ex {X} (P : nat -> X -> Prop) (d : X) k : (forall i, exists x, P i x) -> exists l, length l = k /\ forall i, (i < k)%nat -> P i (nth i l d).
Proof.
  intros H. induction k as [|k (l & L & N)]; [exists []; split; [reflexivity|lia]|]. destruct (H k) as (x & Hx). exists (l ++ [x]). split; [rewrite app_length, L; cbn; lia|].
  intros i Hi. destruct (Nat.lt_ge_cases i k) as [C|C]; [rewrite app_nth1 by lia; now apply N|]. assert (i = k) as -> by lia. rewrite app_nth2, L, Nat.sub_diag by lia. exact Hx.
Qed.
(** the hypotheses of C84_pde: all orders, initial states and Jacobians *)
Example ex_pde o crs starE starA srcA rfs q : let cf := Build_conf TET4 o o crs 0 in exists stT st fLN fT dE, refMats cf stT st fLN fT /\ sized (cTi cf) (nQtsE (cEl cf) * nModes (cEl cf) (cSp cf) * cCrs cf) dE /\
  forall d, (d < cTi cf)%nat -> rep algR cf (nQtsE (cEl cf)) (nModes (cEl cf) (cSp cf)) (nth d dE []) (fun z => fst (powOf algR cf Rplus (predK algR cf stT) starE starA srcA rfs d (q z))).
Proof.
  intros cf. destruct (C84_load cf) as (stT & st & fLN & fT & HR). exists stT, st, fLN, fT.
  destruct (list_ex (fun d l => rep algR cf (nQtsE (cEl cf)) (nModes (cEl cf) (cSp cf)) l (fun z => fst (powOf algR cf Rplus (predK algR cf stT) starE starA srcA rfs d (q z)))) [] (cTi cf)) as (dE & L & N); [intros; apply rep_ex|].
  exists dE. split; [exact HR|]. split; [|exact N]. split; [exact L|]. intros d Hd. apply (N d Hd).
Qed.
(** two triangles of different materials and time groups with free surfaces meet the hypotheses of C84_momentum *)
Definition emCf := Build_conf TRIA3 2 2 1 0.
Definition emMt (el : nat) : material := match el with O => {| rho := 1; lam := 2; mu := 1 |} | _ => {| rho := 3; lam := 1; mu := 2 |} end.
Definition emN (el fa : nat) : R * R * R := match el, fa with O, 2%nat => (-1, 0, 0) | 1%nat, 1%nat => (1, 0, 0) | O, 1%nat => (3 / 5, 4 / 5, 0) | _, _ => (0, 1, 0) end.
Lemma emN_r : nv (-1, 0, 0) = (1, 0, 0). Proof. cbv beta iota delta [vopp fst snd]. rewrite Ropp_0. replace (- -1) with 1 by ring. reflexivity. Qed.
Lemma emN_l : nv (1, 0, 0) = (-1, 0, 0). Proof. cbv beta iota delta [vopp fst snd]. rewrite Ropp_0. replace (- 1) with (-1) by ring. reflexivity. Qed.
Example ex_momentum q0 dt hdt : exists U Q, refMats emCf (uStT U) (uSt U) (uLN U) (uFT U) /\
  (forall el fa ne v f, (el < uN U)%nat -> (fa < nElFas (cEl emCf))%nat -> xcMesh el fa = Inner ne v f -> (v < nOri (refOf (cEl emCf)))%nat) /\
  elasticFaces emCf U xcMesh emMt (fun el => INR (S el)) /\ meshSym emCf U xcMesh xlLvl /\ closed emCf U xcMesh /\ scheme algR emCf U xcMesh xlLvl dt hdt q0 Q /\
  synchronized U xlLvl (fun el => match el with O => 2 | _ => 1 end)%nat.
Proof.
  destruct (C84_load emCf) as (stT & st & fLN & fT & HR).
  assert (So : forall el, solid (emMt el)) by (intros [|el]; unfold solid, emMt; cbn; lra).
  assert (HF : forall el fa, exists x, setUpFsR TRIA3 (emMt el) (emMt (match xcMesh el fa with Inner ne _ _ => ne | _ => el end)) (emN el fa) (0, 0, 0) (0, 0, 0) (match xcMesh el fa with Free => true | _ => false end) = Ok x) by (intros; apply setUp_exists; apply So).
  set (sc := fun el (l : list R) => map (fun y => y * scaling 1 Rplus Rmult Rdiv Ropp TRIA3 1 (INR (S el))) l).
  destruct (list_ex (fun el r => length r = 3%nat /\ forall fa, (fa < 3)%nat -> setUpFsR TRIA3 (emMt el) (emMt (match xcMesh el fa with Inner ne _ _ => ne | _ => el end)) (emN el fa) (0, 0, 0) (0, 0, 0) (match xcMesh el fa with Free => true | _ => false end) = Ok (nth fa r ([], [], ([], [])))) [] 2) as (X & LX & HX).
  { intros el. destruct (list_ex (fun fa x => setUpFsR TRIA3 (emMt el) (emMt (match xcMesh el fa with Inner ne _ _ => ne | _ => el end)) (emN el fa) (0, 0, 0) (0, 0, 0) (match xcMesh el fa with Free => true | _ => false end) = Ok x) ([], [], ([], [])) 3 (HF el)) as (l & L & N). exists l. auto. }
  set (fs := fun g : _ -> list R => map (fun el => map (fun x => sc el (g x)) (nth el X [])) (seq 0 2)).
  set (U := {| uStT := stT; uSt := st; uLN := fLN; uFT := fT; uRf := []; uN := 2; uS := {| mStarE := []; mStarA := []; mSrcA := []; mFsE0 := fs (fun x => fst (fst x)); mFsE1 := fs (fun x => snd (fst x)); mFsA0 := []; mFsA1 := [] |} |} : @setup R).
  assert (FS : forall g el fa, (el < 2)%nat -> (fa < 3)%nat -> nth fa (nth el (fs g) []) [] = sc el (g (nth fa (nth el X []) ([], [], ([], []))))).
  { intros g el fa Hel Hfa. unfold fs. rewrite nth_map_seq by exact Hel. destruct (HX el Hel) as (L & _). rewrite (nth_indep _ [] (sc el (g ([], [], ([], []))))) by (rewrite map_length, L; exact Hfa). apply (map_nth (fun x => sc el (g x))). }
  assert (Hs : forall el fa, (el < 2)%nat -> (fa < 3)%nat -> faceSolvers emCf U (fun el => INR (S el)) el fa (emMt el) (emMt (match xcMesh el fa with Inner ne _ _ => ne | _ => el end)) (emN el fa) (0, 0, 0) (0, 0, 0) (match xcMesh el fa with Free => true | _ => false end) 1).
  { intros el fa Hel Hfa. exists (nth fa (nth el X []) ([], [], ([], []))). split; [now apply HX|]. unfold fs0, fs1. split; [apply (FS (fun x => fst (fst x)))|apply (FS (fun x => snd (fst x)))]; assumption. }
  exists U, (theQ algR emCf U xcMesh xlLvl dt hdt q0). split; [exact HR|]. split; [|split; [|split; [|split; [|split]]]].
  - intros el fa ne v f Hel Hfa Em. two Hel; three Hfa; cbn in Em; try discriminate Em; injection Em as <- <- <-; cbn; lia.
  - intros el fa Hel Hfa. split; [apply So|]. split; [apply lt_0_INR; lia|]. pose proof (Hs el fa Hel Hfa) as H.
    assert (FO : frameOk TRIA3 (emN el fa) (0, 0, 0) (0, 0, 0)) by (two Hel; three Hfa; unfold frameOk, emN, unit2; cbn; field).
    two Hel; three Hfa; cbn [xcMesh] in H |- *; try (match type of FO with frameOk _ ?n _ _ => exists n, (0, 0, 0), (0, 0, 0), 1 end; split; [exact FO|exact H]).
    + exists (-1, 0, 0), (0, 0, 0), (0, 0, 0), (0, 0, 0), (0, 0, 0), 1. pose proof (Hs 1%nat 1%nat ltac:(lia) ltac:(lia)) as H'. cbn [xcMesh emN] in H, H'. rewrite emN_r.
      split; [exact FO|]. split; [unfold frameOk, unit2; cbn; ring|]. split; [exact H|exact H'].
    + exists (1, 0, 0), (0, 0, 0), (0, 0, 0), (0, 0, 0), (0, 0, 0), 1. pose proof (Hs 0%nat 2%nat ltac:(lia) ltac:(lia)) as H'. cbn [xcMesh emN] in H, H'. rewrite emN_l.
      split; [exact FO|]. split; [unfold frameOk, unit2; cbn; ring|]. split; [exact H|exact H'].
  - intros el fa ne v f Hel Hfa Em. two Hel; three Hfa; cbn in Em; try discriminate Em; injection Em as <- <- <-; (split; [cbn; lia|]); (split; [cbn; lia|]); (split; [cbv; lia|]); exists 0%nat; reflexivity.
  - intros el fa Hel Hfa. two Hel; three Hfa; cbn; discriminate.
  - apply theQ_scheme. intros el fa ne v f Hel Hfa Em. two Hel; three Hfa; cbn in Em; try discriminate Em; injection Em as <- <- <-; cbv; lia.
  - intros el ne Hel Hne; two Hel; two Hne; reflexivity.
Qed.

Print Assumptions C84_derivative.
Print Assumptions C84_volume.
Print Assumptions C84_surface.
Print Assumptions C84_neighbour.
Print Assumptions C84_mass.
Print Assumptions C84_defined.
Print Assumptions C84_points.
Print Assumptions C84_shared.
Print Assumptions C84_load.
Print Assumptions C84_lowers.
Print Assumptions C84_operator.
Print Assumptions C84_pde.
Print Assumptions C84_volume_kernel.
Print Assumptions C84_surface_local.
Print Assumptions C84_surface_neigh.
Print Assumptions C84_reference.
Print Assumptions C84_momentum.
