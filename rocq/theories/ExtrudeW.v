(** The files of EDGEcut's extrusion for grids: points, sums over directed edges. *)
From Coq Require Import QArith Qcanon Qround Sorting.Sorted Sorting.Permutation.
From Verif Require Import Util MeshSort Extrude ExtrudeSpec ExtrudeP ExtrudeG.
Open Scope nat_scope.

(** ** Regular triangulations *)
Lemma len_for f n c : (forall k, length (snd (f k)) = c) -> forall a, length (snd (ofor f (seq a n))) = n * c.
Proof. intros H. induction n as [|n IH]; intros a; cbn [seq ofor]; auto. unfold oapp. cbn [snd]. rewrite app_length, H, IH. reflexivity. Qed.
Lemma triaOff0 N K : exists o, triaOff (N + 1) (K + 1) 0 = Ok o /\ length (snd o) = K * N * 2 /\
  forall t, In t (snd o) -> exists i j, i < N /\ j < K /\ In t (snd (triasBlTr (i * (K + 1) + j) (K + 1) 1)).
Proof.
  unfold triaOff. cbn [rings bind]. rewrite !usubs_ok by (cbn; lia). cbn [bind list_sum fold_right].
  replace (N + 1 - (1 + (0 + 0))) with (0 + N * 1) by lia. replace (K + 1 - (1 + (0 + 0))) with (0 + K * 1) by lia. rewrite !steps_eq by lia. rewrite ofor_map.
  eexists. split; [reflexivity|]. unfold oapp. cbn [snd app]. split.
  - rewrite (len_for _ N (K * 2)); [lia|]. intros i. rewrite ofor_map. apply len_for. reflexivity.
  - intros t T. apply in_ofor in T. destruct T as (i & I & T). rewrite ofor_map in T. apply in_ofor in T. destruct T as (j & J & T). apply in_seq in I, J.
    exists i, j. split; [lia|]. split; [lia|]. replace (i * (K + 1) + j) with ((0 + i * 1) * (K + 1) + (0 + j * 1)) by lia. exact T.
Qed.

(** ** Sums over edges *)
Fixpoint esum (phi : point -> point -> Z) (l : list (point * point)) : Z := match l with [] => 0%Z | (p, q) :: l => (phi p q + esum phi l)%Z end.
Lemma esum_app phi l m : esum phi (l ++ m) = (esum phi l + esum phi m)%Z.
Proof. induction l as [|[p q] l IH]; cbn [app esum]; [reflexivity|rewrite IH; ring]. Qed.
Definition cphi (phi : point -> point -> Z) (f : off) (a b : nat) : Z := phi (corner f a) (corner f b).
Lemma esum_tot phi f : esum phi (edges f) = tot (cphi phi f) (oTri f).
Proof.
  unfold edges. induction (oTri f) as [|[[a b] c] l IH]; cbn [flat_map tot]; auto. rewrite esum_app, IH. cbn [esum val]. unfold cphi. ring.
Qed.

(** ** Regular files: [N] times [K] cells with the points [g] *)
Record regular (N K : nat) (g : nat -> nat -> point) (f : off) : Prop := {
  rgWf : wellFormed f;
  rgPt : forall i j, i <= N -> j <= K -> corner f (i * (K + 1) + j) = g i j;
  rgTri : forall t, In t (oTri f) -> exists i j, i < N /\ j < K /\ In t (snd (triasBlTr (i * (K + 1) + j) (K + 1) 1));
  rgSum : forall phi, (forall p q, phi p q = (- phi q p)%Z) -> esum phi (edges f) =
    (rs (fun i => phi (g i 0%nat) (g (S i) 0%nat)) N + rs (fun j => phi (g N j) (g N (S j))) K - rs (fun i => phi (g i K) (g (S i) K)) N - rs (fun j => phi (g 0%nat j) (g 0%nat (S j))) K)%Z }.
Lemma side_ok N K pts g : length pts = (N + 1) * (K + 1) -> (forall i j, i <= N -> j <= K -> nth_error pts (i * (K + 1) + j) = Some (g i j)) ->
  exists f, side (K * N * 2) pts (N + 1) (K + 1) = Ok f /\ regular N K g f.
Proof.
  intros Lp Np. destruct (triaOff0 N K) as (o & O & L & M). unfold side. rewrite O. cbn [bind]. eexists. split; [reflexivity|].
  match goal with |- regular _ _ _ ?f => set (f0 := f) end.
  assert (C : forall i j, i <= N -> j <= K -> corner f0 (i * (K + 1) + j) = g i j).
  { intros i j Hi Hj. unfold corner. apply nth_error_nth. apply Np; auto. }
  split; [|exact C|exact M|].
  - split; [reflexivity|]. split; [symmetry; exact L|]. intros a b c T. cbn [oPts oTri f0] in *. apply M in T. destruct T as (i & j & Hi & Hj & T). rewrite Lp.
    cbn [snd triasBlTr In] in T. destruct T as [T|[T|[]]]; injection T as <- <- <-; nia.
  - intros phi anti. rewrite esum_tot. cbn [oTri f0].
    destruct (triaOff_ok (cphi phi f0) (fun a b => anti _ _) (K + 1) (N + 1) 0 N K) as (o' & O' & _ & _ & T); try (cbn; lia).
    rewrite O in O'. injection O' as <-. rewrite T. cbn [Nat.pow]. unfold outl, hor, ver, fe, cphi.
    f_equal; [f_equal; [f_equal|]|]; apply rs_ext; intros i Hi; rewrite !C by lia; repeat f_equal; lia.
Qed.
Lemma addSide_flat N K zT B : addSide N zT (map B (seq 0 (S K))) = flat_map (fun i => map (fun j => lower N i zT (B j)) (seq 0 (S K))) (seq 0 (N + 1)).
Proof. unfold addSide. apply flat_map_ext. intros i. apply map_map. Qed.
Lemma addSide_ok N K zT B : exists f, side (K * N * 2) (addSide N zT (map B (seq 0 (S K)))) (N + 1) (K + 1) = Ok f /\ regular N K (fun i j => lower N i zT (B j)) f.
Proof.
  apply side_ok; rewrite addSide_flat.
  - rewrite (flat_len (fun i j => lower N i zT (B j))). lia.
  - intros i j Hi Hj. replace (K + 1) with (S K) by lia. rewrite (flat_nth (fun i j => lower N i zT (B j))) by lia. reflexivity.
Qed.
Lemma lower_0 N zT p : lower N 0 zT p = p.
Proof.
  destruct p as [[x y] z]. unfold lower. cbn [px py pz fst snd]. change (ofNat 0) with 0%Qc. f_equal. ring.
Qed.
Lemma ofNat_pos n : 0 < n -> (0 < ofNat n)%Qc.
Proof.
  intros H. unfold ofNat, Qclt, Q2Qc. cbn [this]. rewrite !Qred_correct. unfold Qlt, inject_Z. cbn [Qnum Qden]. lia.
Qed.
Lemma lower_N N zT p : 0 < N -> lower N N zT p = (px p, py p, zT).
Proof.
  intros H. unfold lower. f_equal. field. intros E. pose proof (ofNat_pos N H) as K. rewrite E in K. destruct (Qclt_not_eq _ _ K). reflexivity.
Qed.

Section C.
Variable srt : forall A : Type, (A -> A -> bool) -> list A -> list A.
Hypothesis HS : isSort srt.
Variables (pts : list point) (zT eps : Qc) (lv nx ny : nat) (xs ys : nat -> Qc) (zs : nat -> nat -> Qc) (m k : nat).
Hypothesis HG : isGrid pts eps nx ny xs ys zs.
Let R := 2 ^ lv.
Hypothesis Ex : nx = m * R + 1.
Hypothesis Ey : ny = k * R + 1.
Hypothesis Fx : 4 * (R - 1) <= m * R.
Hypothesis Fy : 4 * (R - 1) <= k * R.
Hypothesis Hlv : lv < 16.
Hypothesis Hz : exists i j, i < nx /\ j < ny /\ (zT < zs i j)%Qc.
Let P := gp xs ys zs.
Let bot (p : point) : point := (px p, py p, zT).

Record topSpec (f : off) : Prop := {
  tpPts : oPts f = gridPts nx ny xs ys zs;
  tpWf : wellFormed f;
  tpGood : Forall (good nx ny) (oTri f);
  tpSum : forall phi, (forall p q, phi p q = (- phi q p)%Z) -> esum phi (edges f) =
    (rs (fun i => phi (P (i * R) 0%nat) (P (S i * R) 0%nat)) m + rs (fun j => phi (P (m * R) (j * R)) (P (m * R) (S j * R))) k
     - rs (fun i => phi (P (i * R) (k * R)) (P (S i * R) (k * R))) m - rs (fun j => phi (P 0 (j * R)) (P 0 (S j * R))) k)%Z }.

Lemma cut_ok : exists N fl fr ff fb fo ft, 0 < N /\
  (forall i j l, i < nx -> j < ny -> l < m -> (zs i j - zT < ofNat N * (xs (S l * R)%nat - xs (l * R)%nat))%Qc) /\
  (forall i j l, i < nx -> j < ny -> l < k -> (zs i j - zT < ofNat N * (ys (S l * R)%nat - ys l))%Qc) /\ cut_ srt pts zT lv eps = Ok [fl; fr; ff; fb; fo; ft] /\
  regular N k (fun i j => lower N i zT (P 0 ((k - j) * R))) fl /\ regular N k (fun i j => lower N i zT (P (m * R) (j * R))) fr /\
  regular N m (fun i j => lower N i zT (P (j * R) 0)) ff /\ regular N m (fun i j => lower N i zT (P ((m - j) * R) (k * R))) fb /\
  regular k m (fun j i => bot (P (i * R) (j * R))) fo /\ topSpec ft.
Proof.
  assert (HR : 0 < R) by (apply Nat.neq_0_lt_0, Nat.pow_nonzero; lia).
  destruct (extrude_ok srt HS pts zT eps lv nx ny xs ys zs m k HG Ex Ey Hlv Hz) as (N & HN & Gx & Gy & E). fold R in Gx, Gy. fold R P in E. unfold cut_. rewrite E. cbn [bind].
  unfold writeOff. cbn [eSurf eNx0 eNy0 eNx1 eNy1 eRef eLv eSteps eZ eFront eBack eLeft eRight]. replace (k + 1 - 1) with k by lia. replace (m + 1 - 1) with m by lia.
  destruct (addSide_ok N k zT (fun j => P 0 ((k - j) * R))) as (fl & -> & Rl). cbn [bind].
  destruct (addSide_ok N k zT (fun j => P (m * R) (j * R))) as (fr & -> & Rr). cbn [bind].
  destruct (addSide_ok N m zT (fun j => P (j * R) 0)) as (ff & -> & Rf). cbn [bind].
  destruct (addSide_ok N m zT (fun j => P ((m - j) * R) (k * R))) as (fb & -> & Rb). cbn [bind].
  assert (Sx : steps 0 nx R = map (fun k => k * R) (seq 0 (S m))) by (rewrite Ex; apply steps0; lia).
  assert (Sy : steps 0 ny R = map (fun k => k * R) (seq 0 (S k))) by (rewrite Ey; apply steps0; lia). rewrite Sx, Sy.
  assert (Fl : flat_map (fun vy => map (fun vx => vx * ny + vy) (map (fun k => k * R) (seq 0 (S m)))) (map (fun k => k * R) (seq 0 (S k))) =
               map (fun q => fst q * ny + snd q) (flat_map (fun j => map (fun i => (i * R, j * R)) (seq 0 (S m))) (seq 0 (S k)))).
  { generalize (seq 0 (S k)) as l. induction l as [|j l IH]; [reflexivity|]. cbn [map flat_map]. rewrite map_app, <- IH, !map_map. reflexivity. }
  rewrite Fl.
  assert (RA : forall l, (forall q, In q l -> fst q < nx /\ snd q < ny) -> rdAll (gridPts nx ny xs ys zs) (map (fun q => fst q * ny + snd q) l) = Ok (map (fun q => P (fst q) (snd q)) l)).
  { induction l as [|q l IH]; intros H; [reflexivity|]. cbn [map rdAll]. unfold rd. destruct (H q (or_introl eq_refl)). rewrite grid_nth by auto. cbn [bind].
    rewrite IH by (intros; apply H; right; auto). reflexivity. }
  rewrite RA.
  2:{ intros q Q. apply in_flat_map in Q. destruct Q as (j & J & Q). apply in_map_iff in Q. destruct Q as (i & <- & I). apply in_seq in I, J. cbn [fst snd]. nia. }
  cbn [bind]. rewrite map_map.
  assert (Fm : map (fun q => (px (P (fst q) (snd q)), py (P (fst q) (snd q)), zT)) (flat_map (fun j => map (fun i => (i * R, j * R)) (seq 0 (S m))) (seq 0 (S k))) =
               flat_map (fun j => map (fun i => bot (P (i * R) (j * R))) (seq 0 (S m))) (seq 0 (S k))).
  { generalize (seq 0 (S k)) as l. induction l as [|j l IH]; [reflexivity|]. cbn [map flat_map]. rewrite map_app, IH, !map_map. reflexivity. }
  rewrite Fm.
  destruct (side_ok k m (flat_map (fun j => map (fun i => bot (P (i * R) (j * R))) (seq 0 (S m))) (seq 0 (S k))) (fun j i => bot (P (i * R) (j * R)))) as (fo & -> & Ro).
  { rewrite (flat_len (fun j i => bot (P (i * R) (j * R)))). lia. }
  { intros i j Hi Hj. replace (m + 1) with (S m) by lia. rewrite (flat_nth (fun j i => bot (P (i * R) (j * R)))) by lia. reflexivity. }
  cbn [bind].
  destruct (triaOff_ok (fun _ _ => 0%Z) (fun _ _ => eq_refl) ny nx lv m k Ex Ey Fx Fy) as (o & O & Co & Go & _). rewrite O. cbn [bind].
  match goal with |- context [Ok [fl; fr; ff; fb; fo; ?f]] => set (ft := f) end.
  exists N, fl, fr, ff, fb, fo, ft. repeat (split; [solve [auto]|]).
  assert (C : forall i j, i < nx -> j < ny -> corner ft (i * ny + j) = P i j).
  { intros i j Hi Hj. unfold corner. apply nth_error_nth. apply grid_nth; auto. }
  split; [reflexivity| |exact Go|].
  - split; [reflexivity|]. split; [exact Co|]. intros a b c T. cbn [oPts oTri ft] in *. rewrite Forall_forall in Go.
    destruct (Go _ T) as (x1 & y1 & x2 & y2 & x3 & y3 & X & Y & E' & _). injection E' as -> -> ->. rewrite grid_len. nia.
  - intros phi anti. rewrite esum_tot. cbn [oTri ft].
    destruct (triaOff_ok (cphi phi ft) (fun a b => anti _ _) ny nx lv m k Ex Ey Fx Fy) as (o' & O' & _ & _ & T). rewrite O in O'. injection O' as <-. rewrite T.
    unfold outl, hor, ver, fe, cphi. fold R. cbn [Nat.add].
    f_equal; [f_equal; [f_equal|]|]; apply rs_ext; intros i Hi; (rewrite !C by nia); reflexivity.
Qed.

Lemma cut_closed fs : cut_ srt pts zT lv eps = Ok fs -> forall phi, (forall p q, phi p q = (- phi q p)%Z) -> esum phi (flat_map edges fs) = 0%Z.
Proof.
  intros E phi anti. destruct cut_ok as (N & fl & fr & ff & fb & fo & ft & HN & _ & _ & E' & Rl & Rr & Rf & Rb & Ro & Rt). rewrite E in E'. injection E' as ->.
  cbn [flat_map]. rewrite !esum_app. rewrite (rgSum _ _ _ _ Rl phi anti), (rgSum _ _ _ _ Rr phi anti), (rgSum _ _ _ _ Rf phi anti), (rgSum _ _ _ _ Rb phi anti), (rgSum _ _ _ _ Ro phi anti), (tpSum _ Rt phi anti).
  cbn [esum]. replace (k - k) with 0 by lia. replace (m - m) with 0 by lia. replace (k - 0) with k by lia. replace (m - 0) with m by lia.
  assert (Rv : forall n (Q : nat -> point), rs (fun j => phi (Q (n - j)) (Q (n - S j))) n = (- rs (fun j => phi (Q j) (Q (S j))) n)%Z).
  { intros n Q. rewrite <- rs_opp, <- rs_rev. apply rs_ext. intros j Hj. rewrite anti. f_equal. f_equal; f_equal; lia. }
  rewrite (Rv k (fun j => lower N N zT (P 0 (j * R)))), (Rv k (fun j => lower N 0 zT (P 0 (j * R)))), (Rv m (fun j => lower N N zT (P (j * R) (k * R)))), (Rv m (fun j => lower N 0 zT (P (j * R) (k * R)))).
  assert (L0 : forall (Q : nat -> point) n, rs (fun j => phi (lower N 0 zT (Q j)) (lower N 0 zT (Q (S j)))) n = rs (fun j => phi (Q j) (Q (S j))) n).
  { intros Q n. apply rs_ext. intros j _. rewrite !lower_0. reflexivity. }
  assert (LN : forall (Q : nat -> point) n, rs (fun j => phi (lower N N zT (Q j)) (lower N N zT (Q (S j)))) n = rs (fun j => phi (bot (Q j)) (bot (Q (S j)))) n).
  { intros Q n. apply rs_ext. intros j _. rewrite !lower_N by auto. reflexivity. }
  rewrite (L0 (fun j => P 0 (j * R))), (L0 (fun j => P (m * R) (j * R))), (L0 (fun j => P (j * R) 0)), (L0 (fun j => P (j * R) (k * R))).
  rewrite (LN (fun j => P 0 (j * R))), (LN (fun j => P (m * R) (j * R))), (LN (fun j => P (j * R) 0)), (LN (fun j => P (j * R) (k * R))).
  replace (0 * R) with 0 by lia. ring.
Qed.
End C.
