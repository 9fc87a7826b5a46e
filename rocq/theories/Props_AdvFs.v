(** C91: the set-up of the advection equation.  Specification: [sideA] (outward normal, area and speeds behind a face), [isUp] (upwind solvers), [advWf] (meshes) of AdvFsV. *)
From Coq Require Import List Arith Bool NArith Reals Lra Lia.
From Verif Require Import Util BasisSpec EdgePreM Sparse Qpts AdvFs AdvFsV.
From Verif Require CommProofs Mapping Props_Map Props_Fwave Props_FwaveR.
Import ListNotations.
Local Open Scope R_scope.

Section C91.
Variables (el : refEl) (ord : nat) (per : N) (big : R).
Hypothesis Hbig : 0 < big.
Local Notation d := (dim el).
Local Notation nF := (nFas el).

(** [dotN], with which [isUp] is stated, is the speed in direction [n]: the inner product over the dimensions of the mesh. *)
Definition coord (v : R * R * R) (k : nat) : R := let '(a, b, c) := v in nth k [a; b; c] 0.
Theorem C91_normal_speed v n : dotN d v n = fold_right Rplus 0 (map (fun k => coord v k * coord n k) (seq 0 d)).
Proof. destruct v as ((a & b) & c), n as ((x & y) & z). destruct el; cbn; ring. Qed.

(** The set-up succeeds and every face of every element gets the upwind solvers of its side: the own solver is minus the speed out of the element (zero if the speed points
    into it), the solver of the neighbour is the speed into the element, of the neighbour's material (zero if it points out, or nothing is behind the face); both are
    scaled by the ratio of the face's and the element's sizes. *)
Theorem C91_upwind I nEls nFa : advWf el per I nEls nFa ->
  exists o, setupSolvers el ord per I big nEls nFa = Ok o /\ forall e i, (e < nEls)%nat -> (i < nF)%nat -> isUp el ord I o e i.
Proof. intros W. destruct (setupSolvers_ok el ord per I big nEls nFa W Hbig) as (o & E & _ & H). now exists o. Qed.

(** a side of a face is unique *)
Lemma sideA_det I nEls nFa e i n n' area area' w w' : advWf el per I nEls nFa -> sideA I e i n area w -> sideA I e i n' area' w' -> n = n' /\ area = area' /\ w = w'.
Proof.
  intros W (fa & ch & H1 & H2 & H3 & H4) (fa' & ch' & H1' & H2' & H3' & H4'). assert (fa' = fa) by (eapply hasF_fun; eauto). subst fa'. rewrite H2 in H2'. injection H2' as <-.
  destruct W as (_ & _ & _ & _ & _ & _ & _ & _ & W4 & W5 & _). split; [|split; [congruence|]].
  - destruct H4 as [(eR & A & B & _)|(l & v & A & B & _)], H4' as [(eR' & A' & B' & _)|(l' & v' & A' & B' & _)]; try congruence; exfalso.
    + rewrite A in A'. injection A' as -> ->. destruct (W4 fa _ ch A H2) as (x & X & _ & _ & Y). cbn in X, Y. injection X as <-. destruct Y as (_ & Y & _). congruence.
    + rewrite A in A'. injection A' as -> <-. destruct (W4 fa _ ch A H2) as (x & X & _ & _ & Y). cbn in X, Y. injection X as <-. destruct Y as (_ & Y & _). congruence.
  - destruct H4 as [(eR & A & _ & C)|(l & v & A & _ & B & C)], H4' as [(eR' & A' & _ & C')|(l' & v' & A' & _ & B' & C')].
    + rewrite A in A'. injection A' as <-. destruct eR as [r|].
      * destruct C as (v & C1 & C2), C' as (v' & C1' & C2'). congruence.
      * destruct C as [(co & v & C1 & C2 & C3 & C4)|(C1 & C2)], C' as [(co' & v' & C1' & C2' & C3' & C4')|(C1' & C2')].
        -- assert (co = co') by (apply (proj1 (NoDup_nth_error (vRecv I)) W5); [apply nth_error_Some; congruence|congruence]). congruence.
        -- exfalso. apply C1'. split; [exact C1|]. eapply nth_error_In; eauto.
        -- exfalso. apply C1. split; [exact C1'|]. eapply nth_error_In; eauto.
        -- congruence.
    + exfalso. rewrite A in A'. injection A' as -> ->. destruct (W4 fa _ ch A H2) as (x & X & _ & _ & Y). cbn in X, Y. injection X as <-. destruct Y as (_ & Y & _). congruence.
    + exfalso. rewrite A in A'. injection A' as -> <-. destruct (W4 fa _ ch A H2) as (x & X & _ & _ & Y). cbn in X, Y. injection X as <-. destruct Y as (_ & Y & _). congruence.
    + congruence.
Qed.

(** Two sides of one face, of one mesh or of the meshes of two partitions: what leaves an element enters the other one.  The sides see the same area, opposite normals and
    each other's speeds. *)
Theorem C91_conservative I J nE nF1 nE' nF2 o o' e i e' i' n area v v' D D' a b a' b' : advWf el per I nE nF1 -> advWf el per J nE' nF2 ->
  setupSolvers el ord per I big nE nF1 = Ok o -> setupSolvers el ord per J big nE' nF2 = Ok o' ->
  sideA I e i n area (Some v') -> sideA J e' i' (vneg n) area (Some v) -> nth_error (vBg I) e = Some v -> nth_error (vBg J) e' = Some v' -> detIs el I e D -> detIs el J e' D' ->
  get o e i = Some a -> get o e (nF + i) = Some b -> get o' e' i' = Some a' -> get o' e' (nF + i') = Some b' -> D * a + D' * b' = 0 /\ D * b + D' * a' = 0.
Proof.
  intros W W' E E' S S' Hv Hv' HD HD' Ga Gb Ga' Gb'.
  assert (Z : forall K nK nK2 eK iK nn ar ww, advWf el per K nK nK2 -> sideA K eK iK nn ar ww -> (eK < nK)%nat /\ (iK < nF)%nat) by (intros K nK nK2 eK iK nn ar ww WK (fa & ch & H1 & _); exact (hasF_lt _ _ _ _ _ WK _ _ _ H1)).
  destruct (Z _ _ _ _ _ _ _ _ W S) as (He & Hi). destruct (Z _ _ _ _ _ _ _ _ W' S') as (He' & Hi').
  destruct (setupSolvers_ok el ord per I big nE nF1 W Hbig) as (x & Ex & _ & U). rewrite E in Ex. injection Ex as <-. specialize (U e i He Hi).
  destruct (setupSolvers_ok el ord per J big nE' nF2 W' Hbig) as (x & Ex & _ & U'). rewrite E' in Ex. injection Ex as <-. specialize (U' e' i' He' Hi').
  destruct U as (v1 & n1 & ar1 & w1 & D1 & A1 & A2 & A3 & A4 & A5). destruct U' as (v2 & n2 & ar2 & w2 & D2 & B1 & B2 & B3 & B4 & B5).
  destruct (sideA_det _ _ _ _ _ _ _ _ _ _ _ W S A2) as (<- & <- & <-). destruct (sideA_det _ _ _ _ _ _ _ _ _ _ _ W' S' B2) as (<- & <- & <-).
  assert (U1 : forall K k x y, detIs el K k x -> detIs el K k y -> x = y) by (intros K k x y (v0 & j & Q1 & Q2 & Q3) (v3 & j' & Q1' & Q2' & Q3'); congruence).
  rewrite (U1 _ _ _ _ A3 HD) in A4, A5. rewrite (U1 _ _ _ _ B3 HD') in B4, B5. rewrite Hv in A1. injection A1 as <-. rewrite Hv' in B1. injection B1 as <-.
  destruct W as (_ & _ & _ & _ & _ & _ & W2 & _). destruct W' as (_ & _ & _ & _ & _ & _ & W2' & _). destruct (W2 e He) as (D0 & X1 & X2). rewrite (U1 _ _ _ _ X1 HD) in X2. destruct (W2' e' He') as (D0' & Y1 & Y2). rewrite (U1 _ _ _ _ Y1 HD') in Y2.
  rewrite Ga in A4. rewrite Gb in A5. rewrite Ga' in B4. rewrite Gb' in B5. injection A4 as ->. injection A5 as ->. injection B4 as ->. injection B5 as ->. rewrite !dot_neg.
  assert (K : exists k, D * used el ord area D = k /\ D' * used el ord area D' = k).
  { eexists. split; [reflexivity|]. unfold used, ratio. destruct el; try (field; lra). destruct (ord =? 1)%nat; field; lra. }
  destruct K as (k & K1 & K2). set (x := dotN d v n). set (y := dotN d v' n).
  assert (M1 : Rmin 0 (- x) = - Rmax 0 x) by (unfold Rmax, Rmin; destruct (Rle_dec 0 (- x)), (Rle_dec 0 x); lra). assert (M2 : Rmax 0 (- y) = - Rmin 0 y) by (unfold Rmax, Rmin; destruct (Rle_dec 0 (- y)), (Rle_dec 0 y); lra).
  rewrite M1, M2. split; [transitivity (Rmax 0 x * (D' * used el ord area D' - D * used el ord area D)); [ring|]|transitivity (Rmin 0 y * (D' * used el ord area D' - D * used el ord area D)); [ring|]]; rewrite K1, K2; ring.
Qed.

(** If both sides have the same speeds, the two solvers take the state on the side where the flow comes from. *)
Theorem C91_upwind_state I nEls nFa o e i n area v D a b q q' : advWf el per I nEls nFa -> setupSolvers el ord per I big nEls nFa = Ok o ->
  sideA I e i n area (Some v) -> nth_error (vBg I) e = Some v -> detIs el I e D -> get o e i = Some a -> get o e (nF + i) = Some b ->
  (0 <= dotN d v n -> a * q + b * q' = - (dotN d v n * q) * used el ord area D) /\ (dotN d v n <= 0 -> a * q + b * q' = - (dotN d v n * q') * used el ord area D).
Proof.
  intros W E S Hv HD Ga Gb. pose proof S as (fa & ch & Hf & _). destruct (hasF_lt _ _ _ _ _ W _ _ _ Hf) as (He & Hi).
  destruct (setupSolvers_ok el ord per I big nEls nFa W Hbig) as (x & Ex & _ & U). rewrite E in Ex. injection Ex as <-. specialize (U e i He Hi).
  destruct U as (v1 & n1 & ar1 & w1 & D1 & A1 & A2 & A3 & A4 & A5). destruct (sideA_det _ _ _ _ _ _ _ _ _ _ _ W S A2) as (<- & <- & <-).
  assert (U1 : forall K k x y, detIs el K k x -> detIs el K k y -> x = y) by (intros K k x y (v0 & j & Q1 & Q2 & Q3) (v3 & j' & Q1' & Q2' & Q3'); congruence).
  rewrite (U1 _ _ _ _ A3 HD) in A4, A5. rewrite Hv in A1. injection A1 as <-. rewrite Ga in A4. rewrite Gb in A5. injection A4 as ->. injection A5 as ->.
  split; intros H; [rewrite Rmax_right, Rmin_left by lra|rewrite Rmax_left, Rmin_right by lra]; ring.
Qed.

(** Star matrices: moving a point of the reference element with the star matrix moves its image with the advection speeds.  [ves]: vertices of a line, triangle, tetrahedron, or of
    an axis-aligned rectangle or cuboid. *)
Definition speed (s : spd) (k : nat) : R := let '(a, b, c) := s in match k with 0%nat => a | 1%nat => b | _ => c end.
Definition moves (ves : list (list R)) (s : spd) (st : list R) : Prop := length st = d /\ forall xi t, length xi = d ->
  exists x y, toPhy el ves xi = Ok x /\ toPhy el ves (map (fun p => fst p + t * snd p) (combine xi st)) = Ok y /\ forall k, (k < d)%nat -> nth k y 0 = nth k x 0 + t * speed s k.
Lemma star tol ves s D : 0 <= tol -> Props_Map.affine Rminus Props_FwaveR.rltb (ent el) ves -> (exists j, jac el ves = Ok j /\ D = detOf d j) -> tol < Rabs D ->
  exists st, starEl el tol ves s = Ok st /\ moves ves s st.
Proof.
  clear ord Hbig. intros Ht A (j & Ej & ED) HD. assert (D0 : D <> 0) by (intros X; rewrite X, Rabs_R0 in HD; lra). destruct s as ((s0 & s1) & s2).
  assert (Dm : Mapping.nDim (ent el) = d) by now destruct el.
  assert (ST : exists st, starEl el tol ves (s0, s1, s2) = Ok st /\ length st = d /\ forall k, (k < d)%nat -> Props_Fwave.sigma 0 Rplus d (fun d1 => nth k (nth d1 j []) 0 * nth d1 st 0) = speed (s0, s1, s2) k).
  { unfold starEl. rewrite Ej. cbn [bind]. unfold invOf. subst D. unfold detOf in *. destruct el; cbn [dim] in *.
    - cbn [bind]. eexists. split; [reflexivity|]. split; [reflexivity|]. intros [|k] Hk; [|lia]. unfold crd in *. cbn. field. exact D0.
    - unfold inv2. rewrite (rlt_t _ _ HD). cbn [check bind]. eexists. split; [reflexivity|]. split; [reflexivity|]. intros k Hk. unfold det2, crd in *. do 2 (destruct k as [|k]; [cbn; field; exact D0|]). lia.
    - unfold inv2. rewrite (rlt_t _ _ HD). cbn [check bind]. eexists. split; [reflexivity|]. split; [reflexivity|]. intros k Hk. unfold det2, crd in *. do 2 (destruct k as [|k]; [cbn; field; exact D0|]). lia.
    - unfold inv3. rewrite (rlt_t _ _ HD). cbn [check bind]. eexists. split; [reflexivity|]. split; [reflexivity|]. intros k Hk. unfold det3, crd in *. do 3 (destruct k as [|k]; [cbn; field; exact D0|]). lia.
    - unfold inv3. rewrite (rlt_t _ _ HD). cbn [check bind]. eexists. split; [reflexivity|]. split; [reflexivity|]. intros k Hk. unfold det3, crd in *. do 3 (destruct k as [|k]; [cbn; field; exact D0|]). lia. }
  destruct ST as (st & Es & Ls & Hs). exists st. split; [exact Es|]. split; [exact Ls|]. intros xi t Lx.
  set (xi' := map (fun p => fst p + t * snd p) (combine xi st)). assert (Lx' : length xi' = d) by (unfold xi'; rewrite map_length, combine_length; lia).
  destruct (Props_Map.C59_jacobian _ _ _ _ _ _ _ _ _ _ Props_FwaveR.R_ofield (ent el) ves xi xi' A) as (x & y & J & E1 & E2 & E3 & H); [congruence|congruence|].
  exists x, y. split; [exact E1|]. split; [exact E2|]. intros k Hk. unfold jac in Ej. rewrite E3 in Ej. injection Ej as ->. rewrite Dm in H. specialize (H k Hk). rewrite <- Hs by exact Hk.
  assert (N : forall m, (m < d)%nat -> nth m xi' 0 - nth m xi 0 = t * nth m st 0).
  { intros m Hm. unfold xi'. rewrite (nth_indep _ 0 (0 + t * 0)) by (rewrite map_length, combine_length; lia). change (0 + t * 0) with ((fun p : R * R => fst p + t * snd p) (0, 0)). rewrite map_nth, combine_nth by lia. cbn [fst snd]. ring. }
  assert (SS : Props_Fwave.sigma 0 Rplus d (fun d1 => nth k (nth d1 j []) 0 * (nth d1 xi' 0 - nth d1 xi 0)) = t * Props_Fwave.sigma 0 Rplus d (fun d1 => nth k (nth d1 j []) 0 * nth d1 st 0)).
  { destruct el; cbn [dim] in N |- *; cbv [Props_Fwave.sigma]; cbn [fold_left seq]; rewrite ?(N 0%nat), ?(N 1%nat), ?(N 2%nat) by lia; ring. }
  lra.
Qed.

Theorem C91_star tol I nEls : 0 <= tol -> length (vBg I) = nEls -> (forall e, (e < nEls)%nat -> exists ves D, nth_error (vCrd I) e = Some ves /\ Props_Map.affine Rminus Props_FwaveR.rltb (ent el) ves /\ detIs el I e D /\ tol < Rabs D) ->
  exists sts, setupStarM el tol I nEls = Ok sts /\ length sts = nEls /\ forall e ves s st, nth_error (vCrd I) e = Some ves -> nth_error (vBg I) e = Some s -> nth_error sts e = Some st -> moves ves s st.
Proof.
  clear ord Hbig. intros Ht Lb H. unfold setupStarM.
  destruct (CommProofs.mapM_ok (fun e => v <- rd (vCrd I) e;; s <- rd (vBg I) e;; starEl el tol v s) (fun e st => forall ves s, nth_error (vCrd I) e = Some ves -> nth_error (vBg I) e = Some s -> moves ves s st) (seq 0 nEls)) as (sts & E & F).
  { intros e He. apply in_seq in He. destruct (H e ltac:(lia)) as (ves & D & E1 & A & (v & j & D1 & D2 & D3) & HD). rewrite (rd_some _ _ _ E1). cbn [bind].
    destruct (nth_error (vBg I) e) as [s|] eqn:Es; [|apply nth_error_None in Es; lia]. rewrite (rd_some _ _ _ Es). cbn [bind]. rewrite E1 in D1. injection D1 as <-.
    destruct (star tol ves s D Ht A (ex_intro _ j (conj D2 D3)) HD) as (st & X & Y). exists st. split; [exact X|]. intros ves' s' V1 V2. rewrite E1 in V1. injection V1 as <-. injection V2 as <-. exact Y. }
  exists sts. split; [exact E|]. assert (L : length (seq 0 nEls) = length sts) by (clear -F; induction F; cbn; congruence). rewrite seq_length in L. split; [now rewrite <- L|]. intros e ves s st V1 V2 V3.
  assert (He : (e < nEls)%nat) by (rewrite L; apply nth_error_Some; congruence).
  assert (G : forall (l : list nat) (r : list (list R)) Q k x y, Forall2 Q l r -> nth_error l k = Some x -> nth_error r k = Some y -> Q x y).
  { intros l r Q k x y HF. revert k. induction HF; intros [|k] K1 K2; try discriminate; cbn in *; [congruence|eauto]. }
  exact (G _ _ _ e e st F ltac:(rewrite nth_error_seq by lia; reflexivity) V3 ves s V1 V2).
Qed.

(** Time steps: with the largest step a point crosses [cfl / (2 ord - 1)] of the insphere's diameter. *)
Theorem C91_time_step inDia s cfl : (1 <= ord)%nat -> let sq := fun k => speed s k * speed s k in
  let len := sqrt (match d with 1%nat => sq 0%nat | 2%nat => sq 0%nat + sq 1%nat | _ => sq 0%nat + sq 1%nat + sq 2%nat end) in
  0 < len -> timeStep el ord inDia s cfl * len = inDia * (cfl / (2 * INR ord - 1)).
Proof.
  clear Hbig. intros Ho sq len Hl. destruct s as ((a & b) & c). assert (H1 : 1 <= INR ord) by (change 1 with (INR 1); now apply le_INR).
  assert (E : match d with 1%nat => Rabs a | 2%nat => sqrt (a * a + b * b) | _ => sqrt (a * a + b * b + c * c) end = len).
  { unfold len, sq. cbn [speed]. destruct el; cbn [dim]; try reflexivity. rewrite <- sqrt_Rsqr_abs. reflexivity. }
  unfold timeStep. rewrite E. field. split; lra.
Qed.
(** The statistics: no element's time step is below the minimum or above the maximum, the minimum is one of the steps, the average is the average. *)
Theorem C91_statistics cfl els : let ts := map (fun e => timeStep el ord (fst e) (snd e) cfl) els in let '(mi, av, ma) := stepStats el ord big cfl els in
  els <> [] -> (forall t, In t ts -> 0 <= t <= big) -> In mi ts /\ In ma ts /\ (forall t, In t ts -> mi <= t <= ma) /\ av * INR (length els) = fold_right Rplus 0 ts.
Proof.
  clear Hbig. intros ts. unfold stepStats. set (step := fun st e => _).
  assert (G : forall l mi su ma, fold_left step l (mi, su, ma) = (fold_left (fun m e => Rmin m (timeStep el ord (fst e) (snd e) cfl)) l mi, su + fold_right Rplus 0 (map (fun e => timeStep el ord (fst e) (snd e) cfl) l), fold_left (fun m e => Rmax m (timeStep el ord (fst e) (snd e) cfl)) l ma)).
  { induction l as [|e l IH]; intros; cbn [fold_left fold_right map]; [now rewrite Rplus_0_r|]. unfold step at 2. rewrite IH. f_equal. f_equal. ring. }
  rewrite G. intros Ne Hb.
  assert (Mi : forall l m, fold_left (fun m e => Rmin m (timeStep el ord (fst e) (snd e) cfl)) l m <= m /\ (forall t, In t (map (fun e => timeStep el ord (fst e) (snd e) cfl) l) -> fold_left (fun m e => Rmin m (timeStep el ord (fst e) (snd e) cfl)) l m <= t) /\
    (fold_left (fun m e => Rmin m (timeStep el ord (fst e) (snd e) cfl)) l m = m \/ In (fold_left (fun m e => Rmin m (timeStep el ord (fst e) (snd e) cfl)) l m) (map (fun e => timeStep el ord (fst e) (snd e) cfl) l))).
  { induction l as [|e l IH]; intros m; cbn [fold_left map In]; [split; [lra|split; [tauto|now left]]|]. set (t0 := timeStep el ord (fst e) (snd e) cfl). destruct (IH (Rmin m t0)) as (I1 & I2 & I3). pose proof (Rmin_l m t0). pose proof (Rmin_r m t0). split; [lra|]. split.
    - intros t [<-|Ht]; [lra|now apply I2].
    - destruct I3 as [I3|I3]; [|now right; right]. rewrite I3. destruct (Rle_dec m t0) as [L|L]; [left; rewrite Rmin_left; lra|right; left; rewrite Rmin_right; lra]. }
  assert (Ma : forall l m, m <= fold_left (fun m e => Rmax m (timeStep el ord (fst e) (snd e) cfl)) l m /\ (forall t, In t (map (fun e => timeStep el ord (fst e) (snd e) cfl) l) -> t <= fold_left (fun m e => Rmax m (timeStep el ord (fst e) (snd e) cfl)) l m) /\
    (fold_left (fun m e => Rmax m (timeStep el ord (fst e) (snd e) cfl)) l m = m \/ In (fold_left (fun m e => Rmax m (timeStep el ord (fst e) (snd e) cfl)) l m) (map (fun e => timeStep el ord (fst e) (snd e) cfl) l))).
  { induction l as [|e l IH]; intros m; cbn [fold_left map In]; [split; [lra|split; [tauto|now left]]|]. set (t0 := timeStep el ord (fst e) (snd e) cfl). destruct (IH (Rmax m t0)) as (I1 & I2 & I3). pose proof (Rmax_l m t0). pose proof (Rmax_r m t0). split; [lra|]. split.
    - intros t [<-|Ht]; [lra|now apply I2].
    - destruct I3 as [I3|I3]; [|now right; right]. rewrite I3. destruct (Rle_dec m t0) as [L|L]; [right; left; rewrite Rmax_right; lra|left; rewrite Rmax_left; lra]. }
  destruct (Mi els big) as (A1 & A2 & A3). destruct (Ma els 0) as (B1 & B2 & B3). fold ts in A2, A3, B2, B3.
  assert (T0 : exists t, In t ts). { destruct els as [|e l]; [congruence|]. eexists. now left. } destruct T0 as (t0 & Ht0).
  split; [|split; [|split]].
  - destruct A3 as [A3|A3]; [|exact A3]. specialize (A2 t0 Ht0). pose proof (Hb t0 Ht0). rewrite A3 in A2 |- *. now replace big with t0 by lra.
  - destruct B3 as [B3|B3]; [|exact B3]. specialize (B2 t0 Ht0). pose proof (Hb t0 Ht0). rewrite B3 in B2 |- *. now replace 0 with t0 by lra.
  - intros t Ht. split; [now apply A2|now apply B2].
  - fold ts. rewrite Rplus_0_l. field. apply not_0_INR. destruct els; [congruence|discriminate].
Qed.
End C91.

(** two triangles of a rectangle, the second one belongs to the send-region and has a neighbour on another rank *)
Definition exAdv : advIn := {| vIn := 1; vRecv := [(1, 2)%nat]; vFaEl := [(Some 0%nat, None); (Some 0%nat, Some 1%nat); (Some 0%nat, None); (Some 1%nat, None); (Some 1%nat, None)];
  vElFa := [[0; 1; 2]; [3; 1; 4]]%nat; vCrd := [[[0; 4; 0]; [0; 0; 3]]; [[4; 0; 4]; [3; 3; 0]]];
  vCh := [{| aN := (0, -1, 0); aArea := 4; aSp := 0 |}; {| aN := (3 / 5, 4 / 5, 0); aArea := 5; aSp := 0 |}; {| aN := (-1, 0, 0); aArea := 3; aSp := 0 |};
          {| aN := (0, 1, 0); aArea := 4; aSp := 0 |}; {| aN := (1, 0, 0); aArea := 3; aSp := 0 |}];
  vBg := [(1, 1 / 2, -1); (1, 1 / 2, -1)]; vBgRe := [(-2, 1 / 2, -1)] |}.
Example C91_ex_wf : advWf Tria 1 exAdv 2 5.
Proof.
  split; [reflexivity|]. split; [reflexivity|]. split; [reflexivity|]. split; [reflexivity|]. split; [reflexivity|]. split; [|split; [|split; [|split; [|split]]]].
  - intros e row E. do 2 (destruct e as [|e]; [injection E as <-; split; [reflexivity|split; [repeat constructor; cbn; lia|cbn; intros; lia]]|]). destruct e; discriminate.
  - intros e He. exists 12. split; [|lra]. do 2 (destruct e as [|e]; [eexists _, _; split; [reflexivity|split; [reflexivity|cbv; ring]]|]). lia.
  - intros fa ch E. do 5 (destruct fa as [|fa]; [injection E as <-; cbn; lra|]). destruct fa; discriminate.
  - intros fa p ch E E'. destruct fa as [|[|[|[|[|fa]]]]]; [| | | | |destruct fa; discriminate]; injection E as <-; injection E' as <-; eexists; (split; [reflexivity|]); (split; [lia|]); (split; [left|]).
    1: exists 0%nat. 3: exists 1%nat. 5: exists 2%nat. 7: exists 0%nat. 9: exists 2%nat. 1, 3, 5, 7, 9: eexists; now split. 1, 3, 4, 5: exact Logic.I. cbn. split; [lia|]. split; [lia|]. split; [left|intros _]; [exists 1%nat|exists 1%nat]; eexists; now split.
  - repeat constructor; cbn; tauto.
  - intros e i fa (row & E & Ei). do 2 (destruct e as [|e]; [injection E as <-; do 3 (destruct i as [|i]; [injection Ei as <-; eexists; split; [reflexivity|cbn; auto]|]); destruct i; discriminate|]). destruct e; discriminate.
Qed.
(** the shared face: the flow leaves the first triangle through it with speed one; the other rank's flow enters the second triangle *)
Example C91_ex : exists o, setupSolvers Tria 3 1 exAdv 100 2 5 = Ok o /\ get o 0 1 = Some (- (5 / 12)) /\ get o 0 4 = Some 0 /\ get o 1 1 = Some 0 /\ get o 1 4 = Some (5 / 12) /\ get o 1 2 = Some (- (3 / 12)) /\ get o 1 5 = Some (6 / 12).
Proof.
  destruct (C91_upwind Tria 3 1 100 ltac:(lra) exAdv 2 5 C91_ex_wf) as (o & E & U). exists o. split; [exact E|].
  assert (Q : forall e i n area w v D, sideA exAdv e i n area w -> nth_error (vBg exAdv) e = Some v -> detIs Tria exAdv e D -> (e < 2)%nat -> (i < 3)%nat ->
    get o e i = Some (- Rmax 0 (dotN 2 v n) * (area / D)) /\ get o e (3 + i) = Some (match w with Some w => - Rmin 0 (dotN 2 w n) * (area / D) | None => 0 end)).
  { intros e i n area w v D S Hv (vv & j & D1 & D2 & D3) He Hi. destruct (U e i He Hi) as (v1 & n1 & ar1 & w1 & Dd & A1 & A2 & (v2 & j' & A3 & A4 & A5) & A6 & A7). destruct (sideA_det _ _ _ _ _ _ _ _ _ _ _ _ _ C91_ex_wf S A2) as (<- & <- & <-).
    rewrite Hv in A1. injection A1 as <-. rewrite D1 in A3. injection A3 as <-. rewrite D2 in A4. injection A4 as <-. rewrite <- D3 in A5. rewrite A5 in A6, A7. now split. }
  assert (DD : forall e, (e < 2)%nat -> detIs Tria exAdv e 12). { intros e He. do 2 (destruct e as [|e]; [eexists _, _; split; [reflexivity|split; [reflexivity|cbv; ring]]|]). lia. }
  destruct (Q 0%nat 1%nat (3 / 5, 4 / 5, 0) 5 (Some (1, 1 / 2, -1)) (1, 1 / 2, -1) 12) as (X1 & X2); [|reflexivity|apply DD; lia|lia|lia|].
  { exists 1%nat, {| aN := (3 / 5, 4 / 5, 0); aArea := 5; aSp := 0 |}. split; [eexists; now split|]. split; [reflexivity|]. split; [reflexivity|]. left. exists (Some 1%nat). split; [reflexivity|]. split; [reflexivity|]. eexists. now split. }
  destruct (Q 1%nat 1%nat (vneg (3 / 5, 4 / 5, 0)) 5 (Some (1, 1 / 2, -1)) (1, 1 / 2, -1) 12) as (X3 & X4); [|reflexivity|apply DD; lia|lia|lia|].
  { exists 1%nat, {| aN := (3 / 5, 4 / 5, 0); aArea := 5; aSp := 0 |}. split; [eexists; now split|]. split; [reflexivity|]. split; [reflexivity|]. right. eexists 0%nat, _. split; [reflexivity|]. split; [reflexivity|]. now split. }
  destruct (Q 1%nat 2%nat (1, 0, 0) 3 (Some (-2, 1 / 2, -1)) (1, 1 / 2, -1) 12) as (X5 & X6); [|reflexivity|apply DD; lia|lia|lia|].
  { exists 4%nat, {| aN := (1, 0, 0); aArea := 3; aSp := 0 |}. split; [eexists; now split|]. split; [reflexivity|]. split; [reflexivity|]. left. exists None. split; [reflexivity|]. split; [reflexivity|]. left. exists 0%nat. eexists. split; [cbn; lia|]. split; [reflexivity|]. split; reflexivity. }
  cbn [Nat.add] in *. rewrite X1, X2, X3, X4, X5, X6. unfold dotN, vneg, Rmax, Rmin.
  repeat match goal with |- context [Rle_dec ?a ?b] => destruct (Rle_dec a b); try (exfalso; lra) end. repeat split; f_equal; field.
Qed.
Example C91_ex_star : exists sts, setupStarM Tria (1 / 100) exAdv 2 = Ok sts /\ length sts = 2%nat /\ forall st, nth_error sts 1 = Some st -> moves Tria [[4; 0; 4]; [3; 3; 0]] (1, 1 / 2, -1) st.
Proof.
  destruct (C91_star Tria (1 / 100) exAdv 2) as (sts & E & L & H); [lra|reflexivity| |].
  { intros e He. do 2 (destruct e as [|e]; [do 2 eexists; split; [reflexivity|split; [split; [reflexivity|repeat constructor]|split; [eexists _, _; split; [reflexivity|split; [reflexivity|reflexivity]]|]]]; cbv [detOf dim det2 crd nth]; rewrite Rabs_right; cbv; lra|]). lia. }
  exists sts. split; [exact E|]. split; [exact L|]. intros st Hs. exact (H 1%nat _ _ st eq_refl eq_refl Hs).
Qed.
Example C91_ex_stats : let els := [(2, (1, 0, 0)); (1, (1, 0, 0))] in let '(mi, av, ma) := stepStats Tria 2 100 (1 / 2) els in mi = 1 / 6 /\ ma = 1 / 3 /\ av = 1 / 4.
Proof.
  assert (S : forall a, timeStep Tria 2 a (1, 0, 0) (1 / 2) = a / 6) by (intros a; unfold timeStep; cbn [dim INR]; replace (1 * 1 + 0 * 0) with 1 by ring; rewrite sqrt_1; lra).
  unfold stepStats. cbn [fold_left fst snd length INR]. rewrite !S, (Rmin_right 100 (2 / 6)), (Rmin_right (2 / 6) (1 / 6)), (Rmax_right 0 (2 / 6)), (Rmax_left (2 / 6) (1 / 6)) by lra. repeat split; lra.
Qed.
Print Assumptions C91_normal_speed. Print Assumptions C91_upwind. Print Assumptions C91_conservative. Print Assumptions C91_upwind_state. Print Assumptions C91_star. Print Assumptions C91_time_step. Print Assumptions C91_statistics.
