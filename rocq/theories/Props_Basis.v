(** C83: the generated basis functions are the orthogonal polynomials, the generated derivatives are their derivatives. *)
From Coq Require Import List ZArith Reals Lra Lia Bool.
From Verif Require Import Util BasisEx BasisCode2 BasisCode3 BasisSpec BasisPoly BasisSafe Basis BasisModes EdgePre.
Import ListNotations.
Local Open Scope R_scope.

(** points, where the generated expressions divide by zero: the vertex (0,1) and the line through it for triangles, the planes through the edge from (0,1,0) to (0,0,1)
    and through the vertex (0,0,1) for tetrahedra *)
Definition regular (el : refEl) (x y z : R) : Prop := match el with Tria => y <> 1 | Tet => y + z <> 1 /\ z <> 1 | _ => True end.
Definition singP (el : refEl) : list P3 := match el with Tria => [sub3 Y One] | Tet => [sub3 (add3 Y Zz) One; sub3 Zz One] | _ => [] end.
Lemma sing_ok el x y z L : regular el x y z -> In L (singP el) -> ev3 (pt3 x y z) L <> 0.
Proof.
  set (t := pt3 x y z). assert (EY : ev3 t Y = y) by (apply (ev3_var t 1); lia). assert (EZ : ev3 t Zz = z) by (apply (ev3_var t 2); lia). assert (E1 : ev3 t One = 1) by apply ev3_cst.
  destruct el; cbn [regular singP In]; intros H I; try contradiction.
  - destruct I as [<-|[]]. rewrite ev3_sub, EY, E1. lra.
  - destruct I as [<-|[<-|[]]]; rewrite ev3_sub, ?ev3_add, ?EY, ?EZ, E1; lra.
Qed.

(** *** The checks of all generated expressions *)
Definition chk (el : refEl) (l : list ex) (ps : list P3) : bool := (length l =? length ps)%nat && forallb (fun a => isPoly (fst a) (snd a) && safe (singP el) (fst a)) (combine l ps).
Definition ref (el : refEl) (n : nat) : list P3 := map (phiP el) (modes el n).
Definition noDiv (l : list ex) : bool := forallb (safe []) l.
Lemma chk_line : chk Line line_val (ref Line 10) = true. Proof. vm_cast_no_check (eq_refl true). Qed.
Lemma chk_line1 : chk Line line_d1 (map (der3 0) (ref Line 10)) = true. Proof. vm_cast_no_check (eq_refl true). Qed.
Lemma chk_tria : chk Tria tria_val (ref Tria 10) = true. Proof. vm_cast_no_check (eq_refl true). Qed.
Lemma chk_tria1 : chk Tria tria_d1 (map (der3 0) (ref Tria 10)) = true. Proof. vm_cast_no_check (eq_refl true). Qed.
Lemma chk_tria2 : chk Tria tria_d2 (map (der3 1) (ref Tria 10)) = true. Proof. vm_cast_no_check (eq_refl true). Qed.
Lemma chk_tet : chk Tet tet_val (ref Tet 11) = true. Proof. vm_cast_no_check (eq_refl true). Qed.
Lemma chk_tet1 : chk Tet tet_d1 (map (der3 0) (ref Tet 11)) = true. Proof. vm_cast_no_check (eq_refl true). Qed.
Lemma chk_tet2 : chk Tet tet_d2 (map (der3 1) (ref Tet 11)) = true. Proof. vm_cast_no_check (eq_refl true). Qed.
Lemma chk_tet3 : chk Tet tet_d3 (map (der3 2) (ref Tet 11)) = true. Proof. vm_cast_no_check (eq_refl true). Qed.

Lemma combine_in {A B} (l : list A) (ps : list B) b e p : nth_error l b = Some e -> nth_error ps b = Some p -> In (e, p) (combine l ps).
Proof.
  revert ps b. induction l as [|a l IH]; intros [|q ps] [|b]; cbn; try discriminate.
  - intros [= ->] [= ->]. now left.
  - intros H1 H2. right. now apply (IH ps b).
Qed.
Lemma chk_branch el l ps b x y z p : chk el l ps = true -> regular el x y z -> nth_error ps b = Some p -> branch l b (pt3 x y z) = Ok (Some (ev3 (pt3 x y z) p)).
Proof.
  intros H G Hp. apply andb_prop in H as (HL & H). apply Nat.eqb_eq in HL. assert (Hb : (b < length l)%nat) by (rewrite HL; apply nth_error_Some; congruence).
  unfold branch. destruct (nth_error l b) as [e|] eqn:Ee; [|apply nth_error_None in Ee; lia]. f_equal.
  pose proof (proj1 (forallb_forall _ _) H (e, p) (combine_in l ps b e p Ee Hp)) as X. cbn [fst snd] in X. apply andb_prop in X as (X1 & X2).
  assert (D : defined (pt3 x y z) e) by (apply (safe_ok (singP el)); [intros L; now apply sing_ok|exact X2]).
  rewrite <- (isPoly_ok (pt3 x y z) e p X1 D). apply evalO_spec. auto.
Qed.
Lemma nth_ref el n b : (b < nMds el n)%nat -> nth_error (ref el n) b = Some (phiP el (modeAt el n b)).
Proof.
  intros H. unfold ref, modeAt. rewrite nth_error_map, (nth_error_nth' _ (0, 0, 0)%nat); [reflexivity|]. rewrite length_modes. exact H.
Qed.
Lemma lim_ext f g x d : (forall t, f t = g t) -> derivable_pt_lim f x d -> derivable_pt_lim g x d.
Proof. intros E H eps He. destruct (H eps He) as (de & Hd). exists de. intros h Hh Hl. rewrite <- !E. now apply Hd. Qed.
Lemma phiP_partial el m di x y z : (di < 3)%nat -> partial (phi el m) di x y z (ev3 (pt3 x y z) (der3 di (phiP el m))).
Proof.
  intros H. pose proof (der3_ok (pt3 x y z) di (phiP el m) H) as D. destruct di as [|[|[|di]]]; [| | |lia]; cbn [partial pt3] in *; refine (lim_ext _ _ _ _ _ D); intros t; rewrite phiP_ok; reflexivity.
Qed.

(** ** Values *)
Lemma line_value b x n : (b < n <= 10)%nat -> evalLine b x = Ok (Some (hom b 0 x 1)).
Proof.
  intros H. unfold evalLine. rewrite (chk_branch Line line_val (ref Line 10) b x 0 0 (phiP Line (b, 0, 0)%nat) chk_line Logic.I).
  - rewrite phiP_ok. reflexivity.
  - rewrite (nth_ref Line 10 b) by (cbn; lia). rewrite modeAt_line by lia. reflexivity.
Qed.
Lemma line_deriv b x n : (b < n <= 10)%nat -> exists d, evalDerLine b x = Ok (Some d) /\ derivable_pt_lim (fun t => hom b 0 t 1) x d.
Proof.
  intros H. exists (ev3 (pt3 x 0 0) (der3 0 (phiP Line (b, 0, 0)%nat))). split; [|exact (phiP_partial Line (b, 0, 0)%nat 0 x 0 0 ltac:(lia))].
  apply (chk_branch Line line_d1 (map (der3 0) (ref Line 10)) b x 0 0 _ chk_line1 Logic.I).
  rewrite nth_error_map, (nth_ref Line 10 b) by (cbn; lia). rewrite modeAt_line by lia. reflexivity.
Qed.
Lemma divmod2 n b : (b < n * n -> b mod n < n /\ b / n < n)%nat.
Proof. intros H. assert (n <> 0)%nat by (intros ->; lia). split; [now apply Nat.mod_upper_bound|]. apply Nat.div_lt_upper_bound; assumption. Qed.
Lemma divmod3 n b : (b < n * n * n -> b mod n < n /\ (b mod (n * n)) / n < n /\ b / (n * n) < n)%nat.
Proof.
  intros H. assert (n <> 0)%nat by (intros ->; lia). split; [now apply Nat.mod_upper_bound|]. split; [apply Nat.div_lt_upper_bound; [assumption|]; apply Nat.mod_upper_bound; nia|].
  apply Nat.div_lt_upper_bound; [nia|]. nia.
Qed.
Definition maxOrder (el : refEl) : nat := match el with Tet => 11 | _ => 10 end.

(** For every order of the build, every number of a basis function and every point but the singular ones, the program returns the value of the polynomial. *)
Theorem C83_value el order b x y z : (order <= maxOrder el)%nat -> (b < nMds el order)%nat -> regular el x y z ->
  evalBasis el b x y z (-1) order = Ok (Some (phi el (modeAt el order b) x y z)).
Proof.
  intros Ho Hb G. destruct el; cbn [maxOrder nMds] in *; cbn [evalBasis].
  - cbn [negb Z.eqb]. rewrite (line_value b x order) by lia. rewrite modeAt_line by exact Hb. reflexivity.
  - destruct (divmod2 order b Hb) as (H1 & H2). unfold evalQuad, factor. cbn [Z.eqb]. rewrite (line_value _ x order), (line_value _ y order) by lia. cbn [bind nlift].
    rewrite modeAt_quad by exact Hb. reflexivity.
  - unfold evalTria. cbn [Z.eqb]. rewrite (chk_branch Tria tria_val (ref Tria 10) b x y 0 _ chk_tria G (nth_ref Tria 10 b ltac:(pose proof (nMds_le Tria order 10 Logic.I Ho); cbn [nMds] in *; lia))).
    rewrite phiP_ok, (modeAt_any Tria order 10 b Logic.I Ho Hb). cbn [pt3]. destruct (modeAt Tria order b) as ((p & q) & r). reflexivity.
  - destruct (divmod3 order b Hb) as (H1 & H2 & H3). unfold evalHex, factor. cbn [Z.eqb]. rewrite (line_value _ x order), (line_value _ y order), (line_value _ z order) by lia. cbn [bind nlift].
    rewrite modeAt_hex by exact Hb. reflexivity.
  - unfold evalTet. cbn [Z.eqb]. rewrite (chk_branch Tet tet_val (ref Tet 11) b x y z _ chk_tet G (nth_ref Tet 11 b ltac:(pose proof (nMds_le Tet order 11 Logic.I Ho); cbn [nMds] in *; lia))).
    rewrite phiP_ok, (modeAt_any Tet order 11 b Logic.I Ho Hb). reflexivity.
Qed.

(** ** Derivatives *)
(** the number of the derivative in coordinate [di]; for lines the program expects 1 instead of 0 *)
Definition derNo (el : refEl) (di : nat) : Z := match el with Line => 1%Z | _ => Z.of_nat di end.
Theorem C83_derivative el order b di x y z : (order <= maxOrder el)%nat -> (b < nMds el order)%nat -> (di < dim el)%nat -> regular el x y z ->
  exists d, evalBasis el b x y z (derNo el di) order = Ok (Some d) /\ partial (phi el (modeAt el order b)) di x y z d.
Proof.
  intros Ho Hb Hd G. destruct el; cbn [maxOrder nMds dim derNo] in *; cbn [evalBasis].
  - assert (di = 0%nat) by lia. subst. cbn [negb Z.eqb Pos.eqb]. destruct (line_deriv b x order ltac:(lia)) as (d & E & D). exists d. split; [exact E|]. rewrite modeAt_line by exact Hb. exact D.
  - destruct (divmod2 order b Hb) as (H1 & H2). rewrite modeAt_quad by exact Hb. unfold evalQuad, factor.
    destruct di as [|[|di]]; [| |lia]; cbn [Z.of_nat Z.eqb Pos.of_succ_nat Pos.eqb partial phi].
    + destruct (line_deriv (b mod order) x order ltac:(lia)) as (d & E & D). rewrite E, (line_value _ y order) by lia. cbn [bind nlift]. eexists. split; [reflexivity|].
      set (c := hom (b / order) 0 y 1). replace (d * c) with (d * c + hom (b mod order) 0 x 1 * 0) by ring. apply (derivable_pt_lim_mult (fun t => hom (b mod order) 0 t 1) (fun _ => c)); [exact D|apply derivable_pt_lim_const].
    + destruct (line_deriv (b / order) y order ltac:(lia)) as (d & E & D). rewrite E, (line_value _ x order) by lia. cbn [bind nlift]. eexists. split; [reflexivity|].
      set (c := hom (b mod order) 0 x 1). replace (c * d) with (0 * hom (b / order) 0 y 1 + c * d) by ring. apply (derivable_pt_lim_mult (fun _ => c) (fun t => hom (b / order) 0 t 1)); [apply derivable_pt_lim_const|exact D].
  - assert (B : (b < nMds Tria 10)%nat) by (pose proof (nMds_le Tria order 10 Logic.I Ho); cbn [nMds] in *; lia). rewrite <- (modeAt_any Tria order 10 b Logic.I Ho Hb).
    exists (ev3 (pt3 x y 0) (der3 di (phiP Tria (modeAt Tria 10 b)))). split.
    + unfold evalTria. destruct di as [|[|di]]; [| |lia]; cbn [Z.of_nat Z.eqb Pos.of_succ_nat Pos.eqb].
      * apply (chk_branch Tria _ _ b x y 0 _ chk_tria1 G). rewrite nth_error_map, nth_ref by exact B. reflexivity.
      * apply (chk_branch Tria _ _ b x y 0 _ chk_tria2 G). rewrite nth_error_map, nth_ref by exact B. reflexivity.
    + pose proof (phiP_partial Tria (modeAt Tria 10 b) di x y 0 ltac:(lia)) as D. destruct (modeAt Tria 10 b) as ((p & q) & r). destruct di as [|[|di]]; [| |lia]; exact D.
  - destruct (divmod3 order b Hb) as (H1 & H2 & H3). rewrite modeAt_hex by exact Hb. unfold evalHex, factor.
    set (p := (b mod order)%nat) in *. set (q := (b mod (order * order) / order)%nat) in *. set (r := (b / (order * order))%nat) in *.
    destruct di as [|[|[|di]]]; [| | |lia]; cbn [Z.of_nat Z.eqb Pos.of_succ_nat Pos.succ Pos.eqb partial phi].
    + destruct (line_deriv p x order ltac:(lia)) as (d & E & D). rewrite E, (line_value _ y order), (line_value _ z order) by lia. cbn [bind nlift]. eexists. split; [reflexivity|].
      set (c := hom q 0 y 1). set (e := hom r 0 z 1). apply (lim_ext (fun t => hom p 0 t 1 * (c * e))); [intros; ring|]. replace (d * c * e) with (d * (c * e) + hom p 0 x 1 * 0) by ring.
      apply (derivable_pt_lim_mult (fun t => hom p 0 t 1) (fun _ => c * e)); [exact D|apply derivable_pt_lim_const].
    + destruct (line_deriv q y order ltac:(lia)) as (d & E & D). rewrite E, (line_value _ x order), (line_value _ z order) by lia. cbn [bind nlift]. eexists. split; [reflexivity|].
      set (c := hom p 0 x 1). set (e := hom r 0 z 1). apply (lim_ext (fun t => hom q 0 t 1 * (c * e))); [intros; ring|]. replace (c * d * e) with (d * (c * e) + hom q 0 y 1 * 0) by ring.
      apply (derivable_pt_lim_mult (fun t => hom q 0 t 1) (fun _ => c * e)); [exact D|apply derivable_pt_lim_const].
    + destruct (line_deriv r z order ltac:(lia)) as (d & E & D). rewrite E, (line_value _ x order), (line_value _ y order) by lia. cbn [bind nlift]. eexists. split; [reflexivity|].
      set (c := hom p 0 x 1). set (e := hom q 0 y 1). apply (lim_ext (fun t => hom r 0 t 1 * (c * e))); [intros; ring|]. replace (c * e * d) with (d * (c * e) + hom r 0 z 1 * 0) by ring.
      apply (derivable_pt_lim_mult (fun t => hom r 0 t 1) (fun _ => c * e)); [exact D|apply derivable_pt_lim_const].
  - assert (B : (b < nMds Tet 11)%nat) by (pose proof (nMds_le Tet order 11 Logic.I Ho); cbn [nMds] in *; lia). rewrite <- (modeAt_any Tet order 11 b Logic.I Ho Hb).
    exists (ev3 (pt3 x y z) (der3 di (phiP Tet (modeAt Tet 11 b)))). split; [|apply phiP_partial; lia].
    unfold evalTet. destruct di as [|[|[|di]]]; [| | |lia]; cbn [Z.of_nat Z.eqb Pos.of_succ_nat Pos.succ Pos.eqb].
    + apply (chk_branch Tet _ _ b x y z _ chk_tet1 G). rewrite nth_error_map, nth_ref by exact B. reflexivity.
    + apply (chk_branch Tet _ _ b x y z _ chk_tet2 G). rewrite nth_error_map, nth_ref by exact B. reflexivity.
    + apply (chk_branch Tet _ _ b x y z _ chk_tet3 G). rewrite nth_error_map, nth_ref by exact B. reflexivity.
Qed.
Print Assumptions C83_value.
Print Assumptions C83_derivative.

(** ** Points, where a division by zero gives no number *)
Lemma noDiv_branch l b x y z : noDiv (firstn (S b) l) = true -> (b < length l)%nat -> exists v, branch l b (pt3 x y z) = Ok (Some v).
Proof.
  intros H Hb. unfold branch. destruct (nth_error l b) as [e|] eqn:E; [|apply nth_error_None in E; lia]. exists (evalE (pt3 x y z) e). f_equal. apply evalO_spec. split; [|reflexivity].
  apply (safe_ok []); [intros L []|]. apply (proj1 (forallb_forall _ _) H). apply nth_error_In with b.
  rewrite <- (firstn_skipn (S b) l) in E. rewrite nth_error_app1 in E; [exact E|]. rewrite firstn_length. lia.
Qed.
Lemma noDiv_first l k b : noDiv (firstn k l) = true -> (b < k)%nat -> noDiv (firstn (S b) l) = true.
Proof.
  intros H Hb. apply forallb_forall. intros e I. apply (proj1 (forallb_forall _ _) H). replace (firstn (S b) l) with (firstn (S b) (firstn k l)) in I by (rewrite firstn_firstn; f_equal; lia).
  rewrite <- (firstn_skipn (S b) (firstn k l)). apply in_or_app. now left.
Qed.
(** Up to order three no basis function and no derivative divides by zero, at no point of the plane or of space. *)
Theorem C83_low_orders el order b x y z der : (order <= match el with Tria | Tet => 3 | _ => 10 end)%nat -> (b < nMds el order)%nat -> exists v, evalBasis el b x y z der order = Ok (Some v).
Proof.
  intros Ho Hb. assert (L : forall k t, (k < 10)%nat -> exists v, evalLine k t = Ok (Some v)) by (intros k t Hk; eexists; apply (line_value k t 10); lia).
  assert (L' : forall k t, (k < 10)%nat -> exists v, evalDerLine k t = Ok (Some v)) by (intros k t Hk; destruct (line_deriv k t 10 ltac:(lia)) as (d & E & _); eauto).
  assert (F : forall c k t, (k < 10)%nat -> exists v, factor c k t = Ok (Some v)) by (intros [] k t Hk; cbn [factor]; auto).
  destruct el; cbn [nMds evalBasis] in *.
  - destruct (negb _); [apply L|apply L']; lia.
  - destruct (divmod2 order b Hb) as (H1 & H2). unfold evalQuad. destruct (F (der =? 0)%Z (b mod order)%nat x ltac:(lia)) as (u & ->), (F (der =? 1)%Z (b / order)%nat y ltac:(lia)) as (v & ->). cbn [bind nlift]. eauto.
  - assert (B : (b < 6)%nat) by (pose proof (nMds_le Tria order 3 Logic.I Ho) as N; cbn [nMds] in N; change ((3 * 3 + 3) / 2)%nat with 6%nat in N; lia).
    unfold evalTria. destruct (der =? 0)%Z; [|destruct (der =? 1)%Z]; (apply noDiv_branch; [apply (noDiv_first _ 6); [vm_compute; reflexivity|exact B]|refine (Nat.lt_le_trans _ _ _ B _); apply Nat.leb_le; vm_compute; reflexivity]).
  - destruct (divmod3 order b Hb) as (H1 & H2 & H3). unfold evalHex.
    destruct (F (der =? 0)%Z (b mod order)%nat x ltac:(lia)) as (u & ->), (F (der =? 1)%Z (b mod (order * order) / order)%nat y ltac:(lia)) as (v & ->), (F (der =? 2)%Z (b / (order * order))%nat z ltac:(lia)) as (w & ->). cbn [bind nlift]. eauto.
  - assert (B : (b < 10)%nat) by (pose proof (nMds_le Tet order 3 Logic.I Ho) as N; cbn [nMds] in N; change (3 * (3 + 1) * (3 + 2) / 6)%nat with 10%nat in N; lia).
    unfold evalTet. destruct (der =? 0)%Z; [|destruct (der =? 1)%Z; [|destruct (der =? 2)%Z]]; (apply noDiv_branch; [apply (noDiv_first _ 10); [vm_compute; reflexivity|exact B]|refine (Nat.lt_le_trans _ _ _ B _); apply Nat.leb_le; vm_compute; reflexivity]).
Qed.
Print Assumptions C83_low_orders.
(** From order four on every reconstruction of a value at the vertex (0,1) of a triangle and along the edge from (0,1,0) to (0,0,1) of a tetrahedron is not a number, whatever the coefficients are:
    the basis functions have values there, the generated expressions divide zero by zero. *)
Lemma m2p_none el order x y z md ms : (forall b, (md <= b < md + length ms)%nat -> exists v, evalBasis el b x y z (-1) order = Ok v) -> m2p el order x y z md ms None = Ok None.
Proof.
  revert md. induction ms as [|m ms IH]; intros md H; cbn [m2p]; [reflexivity|]. destruct (H md) as (v & ->); [cbn [length]; lia|]. cbn [bind nlift]. apply IH. intros b Hb. apply H. cbn [length]. lia.
Qed.
Lemma m2p_hole el order x y z md ms acc k : (md <= k < md + length ms)%nat -> (forall b, (md <= b < md + length ms)%nat -> exists v, evalBasis el b x y z (-1) order = Ok v) ->
  evalBasis el k x y z (-1) order = Ok None -> m2p el order x y z md ms acc = Ok None.
Proof.
  revert md acc. induction ms as [|m ms IH]; intros md acc Hk H E; cbn [length] in Hk; [lia|]. cbn [m2p]. destruct (Nat.eq_dec k md) as [->|N].
  - rewrite E. cbn [bind nlift]. replace (nlift Rplus acc None) with (@None R) by now destruct acc. apply m2p_none. intros b Hb. apply H. cbn [length]. lia.
  - destruct (H md) as (v & ->); [cbn [length]; lia|]. cbn [bind]. apply IH; [lia|intros b Hb; apply H; cbn [length]; lia|exact E].
Qed.
Lemma branch_ok l b x : (b < length l)%nat -> exists v, branch l b x = Ok v.
Proof. intros H. unfold branch. destruct (nth_error l b) eqn:E; [eauto|]. apply nth_error_None in E. lia. Qed.
Lemma len_tria : length tria_val = 55%nat. Proof. vm_compute. reflexivity. Qed.
Lemma len_tet : length tet_val = 286%nat. Proof. vm_compute. reflexivity. Qed.
Lemma tria9 t : evalTria 9 t 1 (-1) = Ok None.
Proof.
  unfold evalTria, branch. cbn [Z.eqb]. set (l := nth_error tria_val 9). vm_compute in l. subst l. f_equal. cbn [evalO pt3 nlift option_map]. destruct (Req_EM_T _ 0) as [|N]; [reflexivity|]. exfalso. apply N. lra.
Qed.
Lemma tet19 t z : evalTet 19 t (1 - z) z (-1) = Ok None.
Proof.
  unfold evalTet, branch. cbn [Z.eqb]. set (l := nth_error tet_val 19). vm_compute in l. subst l. f_equal. cbn [evalO pt3 nlift option_map]. destruct (Req_EM_T _ 0) as [|N]; [reflexivity|]. exfalso. apply N. lra.
Qed.
Theorem C83_singular_refuted order ms : (4 <= order <= 10)%nat ->
  (length ms = nMds Tria order -> modal2ptval Tria order 0 1 0 ms = Ok None)
  /\ (forall z, length ms = nMds Tet order -> 0 <= z <= 1 -> modal2ptval Tet order 0 (1 - z) z ms = Ok None).
Proof.
  intros Ho. split; [intros HL|intros z HL Hz]; unfold modal2ptval; rewrite HL, Nat.eqb_refl.
  - pose proof (nMds_le Tria 4 order Logic.I ltac:(lia)) as A. pose proof (nMds_le Tria order 10 Logic.I ltac:(lia)) as B. change (nMds Tria 4) with 10%nat in A. change (nMds Tria 10) with 55%nat in B.
    apply (m2p_hole Tria order 0 1 0 0 ms _ 9); [lia| |apply tria9]. intros b Hb. cbn [evalBasis]. unfold evalTria. cbn [Z.eqb]. apply branch_ok. rewrite len_tria. lia.
  - pose proof (nMds_le Tet 4 order Logic.I ltac:(lia)) as A. pose proof (nMds_le Tet order 11 Logic.I ltac:(lia)) as B. change (nMds Tet 4) with 20%nat in A. change (nMds Tet 11) with 286%nat in B.
    apply (m2p_hole Tet order 0 (1 - z) z 0 ms _ 19); [lia| |apply tet19]. intros b Hb. cbn [evalBasis]. unfold evalTet. cbn [Z.eqb]. apply branch_ok. rewrite len_tet. lia.
Qed.
Print Assumptions C83_singular_refuted.

(** ** EDGEpre's basis functions *)
(** For every degree EDGEpre derives as many functions as the solver has modes, and these are the same polynomials in the same order. *)
Theorem C83_edge_pre el n : length (gen el n) = nMds el (S n) /\
  forall b x y z f, nth_error (gen el n) b = Some f -> regular el x y z -> f x y z = phi el (modeAt el (S n) b) x y z.
Proof.
  rewrite gen_modes. split; [rewrite map_length; apply length_modes|]. intros b x y z f H G. rewrite nth_error_map in H. unfold modeAt. destruct (nth_error (modes el (S n)) b) as [m|] eqn:E; [|discriminate].
  rewrite (nth_error_nth _ _ _ E). injection H as <-. destruct m as ((p & q) & r). destruct el; cbn [preOf phi regular] in *.
  - apply preLine_ok.
  - now rewrite !preLine_ok.
  - apply preTria_ok. lra.
  - now rewrite !preLine_ok.
  - apply preTet_ok; lra.
Qed.
Print Assumptions C83_edge_pre.

(** ** Reconstruction of a value *)
Fixpoint wsum (f : nat -> R) (b : nat) (ms : list R) : R := match ms with [] => 0 | m :: ms => f b * m + wsum f (S b) ms end.
(** The value of a modal expansion at a regular point is the sum of the coefficients times the basis functions. *)
Theorem C83_reconstruction el order x y z ms : (order <= maxOrder el)%nat -> length ms = nMds el order -> regular el x y z ->
  modal2ptval el order x y z ms = Ok (Some (wsum (fun b => phi el (modeAt el order b) x y z) 0 ms)).
Proof.
  intros Ho HL G. unfold modal2ptval. rewrite HL, Nat.eqb_refl.
  assert (K : forall ms md acc, (md + length ms <= nMds el order)%nat -> m2p el order x y z md ms (Some acc) = Ok (Some (acc + wsum (fun b => phi el (modeAt el order b) x y z) md ms))).
  { clear ms HL. induction ms as [|m ms IH]; intros md acc H; cbn [m2p wsum length] in *; [now rewrite Rplus_0_r|]. rewrite C83_value by (assumption || lia). cbn [bind nlift]. rewrite IH by lia. do 2 f_equal. ring. }
  rewrite K by lia. now rewrite Rplus_0_l.
Qed.
Print Assumptions C83_reconstruction.

(** ** Derivatives for lines *)
(** The derivative in the first coordinate has number 0, except for lines: there the value is returned (the derivative has number 1).  The values at quadrature points, which
    are set up with number 0, are therefore no derivatives: for the second basis function 2 xi - 1 the derivative is 2. *)
Theorem C83_line_derivative_refuted x y z : evalBasis Line 1 x y z 0 2 = Ok (Some (2 * x - 1)) /\ partial (phi Line (modeAt Line 2 1)) 0 x y z 2.
Proof.
  assert (E : forall t, hom 1 0 t 1 = 2 * t - 1) by (intros t; unfold hom, C; cbn; field). split.
  - cbn [evalBasis]. cbn [negb Z.eqb]. rewrite (line_value 1 x 2) by lia. now rewrite E.
  - rewrite modeAt_line by lia. cbn [partial phi]. apply (lim_ext (fun t => 2 * t - 1)); [intros t; now rewrite E|]. enough (X : derivable_pt_lim (fun t => 2 * t - 1) x (2 * 1 - 0)) by (replace (2 * 1 - 0) with 2 in X by ring; exact X). apply (derivable_pt_lim_minus (fun t => 2 * t) (fun _ => 1)); [|apply derivable_pt_lim_const].
    apply (derivable_pt_lim_scal id 2). apply derivable_pt_lim_id.
Qed.
Print Assumptions C83_line_derivative_refuted.

(** ** Examples: the hypotheses hold for usual points *)
Example C83_ex_tet : regular Tet (1 / 4) (1 / 4) (1 / 4) /\ (7 < nMds Tet 5)%nat /\ modeAt Tet 5 7 = (1, 0, 1)%nat. Proof. split; [cbn; lra|]. split; [cbn; lia|reflexivity]. Qed.
Example C83_ex_tria : evalBasis Tria 4 (1 / 2) (1 / 4) 0 (-1) 5 = Ok (Some (1 / 16)).
Proof. rewrite C83_value; [|cbn; lia|cbn; lia|cbn; lra]. do 2 f_equal. cbv [modeAt]. cbn -[phi]. cbn [phi]. unfold hom, C. cbn. field. Qed.
Example C83_ex_modes : modes Tria 3 = [(0, 0, 0); (0, 1, 0); (1, 0, 0); (0, 2, 0); (1, 1, 0); (2, 0, 0)]%nat /\ modes Quad 2 = [(0, 0, 0); (1, 0, 0); (0, 1, 0); (1, 1, 0)]%nat. Proof. split; reflexivity. Qed.
Example C83_ex_singular : length (repeat 1 10) = nMds Tria 4 /\ length (repeat 1 20) = nMds Tet 4. Proof. split; reflexivity. Qed.
Example C83_ex_low : exists v, evalBasis Tria 5 0 1 0 1 3 = Ok (Some v). Proof. apply C83_low_orders; cbn; lia. Qed.
