(** C85, C86: EDGEcut's extrusion of a surface. *)
From Coq Require Import QArith Qcanon Qround Sorting.Sorted Sorting.Permutation.
From Verif Require Import Util MeshSort Extrude ExtrudeSpec ExtrudeP ExtrudeG ExtrudeW ExtrudeT.
Open Scope nat_scope.

(** ** Preparations *)
Lemma suitable_ok srt pts zT lv eps nx ny xs ys zs : isSort srt -> suitable pts zT lv eps nx ny xs ys zs -> exists m k, nx = m * 2 ^ lv + 1 /\ ny = k * 2 ^ lv + 1 /\
  incr xs nx /\ incr ys ny /\
  exists N fl fr ff fb fo ft, 0 < N /\
  (forall i j l, i < nx -> j < ny -> l < m -> (zs i j - zT < ofNat N * (xs (S l * 2 ^ lv)%nat - xs (l * 2 ^ lv)%nat))%Qc) /\
  (forall i j l, i < nx -> j < ny -> l < k -> (zs i j - zT < ofNat N * (ys (S l * 2 ^ lv)%nat - ys l))%Qc) /\
  cut_ srt pts zT lv eps = Ok [fl; fr; ff; fb; fo; ft] /\
  regular N k (fun i j => lower N i zT (gp xs ys zs 0 ((k - j) * 2 ^ lv))) fl /\ regular N k (fun i j => lower N i zT (gp xs ys zs (m * 2 ^ lv) (j * 2 ^ lv))) fr /\
  regular N m (fun i j => lower N i zT (gp xs ys zs (j * 2 ^ lv) 0)) ff /\ regular N m (fun i j => lower N i zT (gp xs ys zs ((m - j) * 2 ^ lv) (k * 2 ^ lv))) fb /\
  regular k m (fun j i => (xs (i * 2 ^ lv), ys (j * 2 ^ lv), zT)) fo /\ topSpec lv nx ny xs ys zs m k ft.
Proof.
  intros HS (G & (m & Ex & Fx) & (k & Ey & Fy) & L & Z). exists m, k. repeat (split; [solve [auto]|]). split; [eapply xs_incr; eauto|]. split; [eapply ys_incr; eauto|].
  exact (cut_ok srt HS pts zT eps lv nx ny xs ys zs m k G Ex Ey Fx Fy L Z).
Qed.

(** an example: 5 times 7 points, one level *)
Definition exX (i : nat) : Qc := ofNat (i * (i + 1)).
Definition exZ (i j : nat) : Qc := ofNat ((i * j) mod 3).
Definition exPts : list point := rev (gridPts 5 7 exX ofNat exZ).
Definition exEps : Qc := Q2Qc (1 # 1000).
Definition exT : Qc := Q2Qc (-2).
Lemma ofNat_S i : ofNat (S i) = (ofNat i + 1)%Qc.
Proof.
  apply Qc_is_canon. unfold ofNat. rewrite t_add. unfold Q2Qc. cbn [this]. rewrite !Qred_correct. rewrite Nat2Z.inj_succ. unfold Z.succ. rewrite inject_Z_plus. reflexivity.
Qed.
Lemma ofNat_lt i j : i < j -> (ofNat i < ofNat j)%Qc.
Proof. intros H. unfold ofNat, Qclt, Q2Qc. cbn [this]. rewrite !Qred_correct. unfold Qlt, inject_Z. cbn [Qnum Qden]. lia. Qed.
Example ex_suitable : suitable exPts exT 1 exEps 5 7 exX ofNat exZ.
Proof.
  split; [|split; [exists 2; cbn; lia|split; [exists 3; cbn; lia|split; [lia|exists 0, 0; split; [lia|split; [lia|vm_compute; reflexivity]]]]]].
  split; [discriminate|]. split; [lia|]. split; [lia|]. split; [|split].
  - intros i Hi. do 4 (destruct i as [|i]; [vm_compute; reflexivity|]). lia.
  - intros j _. apply ofNat_lt. lia.
  - apply Permutation_sym, Permutation_rev.
Qed.

(** ** Accepted inputs *)
(** A suitable grid, given in any order, is accepted.  All six files are well-formed, and the top holds the given points. *)
Theorem C85_files : forall srt pts zT lv eps nx ny xs ys zs, isSort srt -> suitable pts zT lv eps nx ny xs ys zs ->
  exists fl fr ff fb fo ft, cut_ srt pts zT lv eps = Ok [fl; fr; ff; fb; fo; ft] /\ Forall wellFormed [fl; fr; ff; fb; fo; ft] /\ Permutation pts (oPts ft).
Proof.
  intros srt pts zT lv eps nx ny xs ys zs HS H. destruct (suitable_ok _ _ _ _ _ _ _ _ _ _ HS H) as (m & k & _ & _ & _ & _ & N & fl & fr & ff & fb & fo & ft & _ & _ & _ & E & Rl & Rr & Rf & Rb & Ro & Rt).
  exists fl, fr, ff, fb, fo, ft. split; [exact E|]. split.
  { apply Forall_forall. intros f F. cbn [In] in F. destruct F as [<-|[<-|[<-|[<-|[<-|[<-|[]]]]]]]; [eapply rgWf|eapply rgWf|eapply rgWf|eapply rgWf|eapply rgWf|eapply tpWf]; eassumption. }
 
  rewrite (tpPts _ _ _ _ _ _ _ _ _ Rt). apply H.
Qed.
Print Assumptions C85_files.

Definition pairDec {T} (dec : forall a b : T, {a = b} + {a <> b}) (a b : T * T) : {a = b} + {a <> b}.
Proof.
  destruct a as [a1 a2], b as [b1 b2]. destruct (dec a1 b1) as [E1|E1]; [|right; congruence]. destruct (dec a2 b2) as [E2|E2]; [left|right]; congruence.
Defined.
Definition onBoth {T} (g : point -> T) (e : point * point) : T * T := (g (fst e), g (snd e)).
(** The six files together are closed: each directed edge has as many counterparts in the opposite direction.  [g] is the way points are written. *)
Theorem C85_watertight : forall srt pts zT lv eps nx ny xs ys zs fs, isSort srt -> suitable pts zT lv eps nx ny xs ys zs -> cut_ srt pts zT lv eps = Ok fs ->
  forall T (dec : forall a b : T, {a = b} + {a <> b}) (g : point -> T) p q,
    count_occ (pairDec dec) (map (onBoth g) (flat_map edges fs)) (p, q) = count_occ (pairDec dec) (map (onBoth g) (flat_map edges fs)) (q, p).
Proof.
  intros srt pts zT lv eps nx ny xs ys zs fs HS (G & (m & Ex & Fx) & (k & Ey & Fy) & L & Z) E T dec g p q.
  set (one := fun a b : T * T => if pairDec dec a b then 1%Z else 0%Z).
  set (phi := fun a b => (one (g a, g b) (p, q) - one (g a, g b) (q, p))%Z).
  assert (S : forall l, esum phi l = (Z.of_nat (count_occ (pairDec dec) (map (onBoth g) l) (p, q)) - Z.of_nat (count_occ (pairDec dec) (map (onBoth g) l) (q, p)))%Z).
  { induction l as [|[a b] l IH]; [reflexivity|]. cbn [esum map count_occ]. rewrite IH. unfold phi, one, onBoth. cbn [fst snd].
    destruct (pairDec dec (g a, g b) (p, q)), (pairDec dec (g a, g b) (q, p)); lia. }
  assert (A : forall a b, phi a b = (- phi b a)%Z).
  { intros a b. unfold phi, one. destruct (pairDec dec (g a, g b) (p, q)), (pairDec dec (g a, g b) (q, p)), (pairDec dec (g b, g a) (p, q)), (pairDec dec (g b, g a) (q, p)); try reflexivity; congruence. }
  pose proof (cut_closed srt HS pts zT eps lv nx ny xs ys zs m k G Ex Ey Fx Fy L Z fs E phi A) as C. rewrite S in C. lia.
Qed.
Print Assumptions C85_watertight.

(** Seen from above, each point of the surface which is not in line with an edge is in exactly one triangle of the top. *)
Theorem C85_tiles : forall srt pts zT lv eps nx ny xs ys zs fl fr ff fb fo ft, isSort srt -> suitable pts zT lv eps nx ny xs ys zs ->
  cut_ srt pts zT lv eps = Ok [fl; fr; ff; fb; fo; ft] ->
  forall x y, (xs 0%nat < x)%Qc -> (x < xs (nx - 1)%nat)%Qc -> (ys 0%nat < y)%Qc -> (y < ys (ny - 1)%nat)%Qc -> generic x y ft ->
  exists n, n < length (oTri ft) /\ inside x y ft (nth n (oTri ft) (0, 0, 0)) /\ forall n', n' < length (oTri ft) -> inside x y ft (nth n' (oTri ft) (0, 0, 0)) -> n' = n.
Proof.
  intros srt pts zT lv eps nx ny xs ys zs fl fr ff fb fo ft HS H E x y X0 X1 Y0 Y1 G.
  destruct (suitable_ok _ _ _ _ _ _ _ _ _ _ HS H) as (m & k & Ex & Ey & IX & IY & N & fl' & fr' & ff' & fb' & fo' & ft' & _ & _ & _ & E' & _ & _ & _ & _ & _ & Rt).
  rewrite E in E'. injection E' as <- <- <- <- <- <-.
  pose proof (top_one lv nx ny xs ys zs m k ft IX IY Ex Ey Rt x y G X0 X1 Y0 Y1) as O. destruct (filter_one (0, 0, 0) _ _ O) as (n & Hn & B & U).
  exists n. split; [exact Hn|]. split; [apply insideb_ok; exact B|]. intros n' Hn' I. apply U; auto. apply insideb_ok. exact I.
Qed.
Print Assumptions C85_tiles.

(** *** Orientation *)
Lemma zdiff N i zT p : 0 < N -> (pz (lower N i zT p) - pz (lower N (S i) zT p) = (pz p - zT) / ofNat N)%Qc.
Proof.
  intros H. unfold lower. cbn [pz snd]. rewrite ofNat_S. field. intros E. pose proof (ofNat_pos N H) as K. rewrite E in K. destruct (Qclt_not_eq _ _ K). reflexivity.
Qed.
Lemma zdown N i zT p : 0 < N -> (zT < pz p)%Qc -> (0 < pz (lower N i zT p) - pz (lower N (S i) zT p))%Qc.
Proof. intros H L. rewrite zdiff by auto. apply div_pos; [apply Qc_sub_pos; exact L|apply ofNat_pos; exact H]. Qed.
Lemma npos (e u v w : Qc) : (0 < u)%Qc -> (v < w)%Qc -> e = (u * (w - v))%Qc -> (0 < e)%Qc.
Proof. intros U V ->. apply Qc_mul_pos; [exact U|apply Qc_sub_pos; exact V]. Qed.
Lemma nneg (e u v w : Qc) : (0 < u)%Qc -> (v < w)%Qc -> e = (u * (v - w))%Qc -> (e < 0)%Qc.
Proof.
  intros U V ->. apply Qclt_minus_iff. replace (0 + - (u * (v - w)))%Qc with (u * (w - v))%Qc by ring. apply Qc_mul_pos; [exact U|apply Qc_sub_pos; exact V].
Qed.

(** If the whole surface is above the bottom, all triangles are oriented outwards: the sides are in their planes, with normals which point away from the domain. *)
Theorem C85_outward : forall srt pts zT lv eps nx ny xs ys zs fl fr ff fb fo ft, isSort srt -> suitable pts zT lv eps nx ny xs ys zs ->
  (forall i j, i < nx -> j < ny -> (zT < zs i j)%Qc) -> cut_ srt pts zT lv eps = Ok [fl; fr; ff; fb; fo; ft] ->
  allTria fl (fun a b c => px a = xs 0%nat /\ px b = xs 0%nat /\ px c = xs 0%nat /\ px (normal a b c) < 0)%Qc /\
  allTria fr (fun a b c => px a = xs (nx - 1)%nat /\ px b = xs (nx - 1)%nat /\ px c = xs (nx - 1)%nat /\ 0 < px (normal a b c))%Qc /\
  allTria ff (fun a b c => py a = ys 0%nat /\ py b = ys 0%nat /\ py c = ys 0%nat /\ py (normal a b c) < 0)%Qc /\
  allTria fb (fun a b c => py a = ys (ny - 1)%nat /\ py b = ys (ny - 1)%nat /\ py c = ys (ny - 1)%nat /\ 0 < py (normal a b c))%Qc /\
  allTria fo (fun a b c => pz a = zT /\ pz b = zT /\ pz c = zT /\ pz (normal a b c) < 0)%Qc /\
  allTria ft (fun a b c => 0 < pz (normal a b c))%Qc.
Proof.
  intros srt pts zT lv eps nx ny xs ys zs fl fr ff fb fo ft HS H HZ E.
  destruct (suitable_ok _ _ _ _ _ _ _ _ _ _ HS H) as (m & k & Ex & Ey & IX & IY & N & fl' & fr' & ff' & fb' & fo' & ft' & HN & _ & _ & E' & Rl & Rr & Rf & Rb & Ro & Rt).
  rewrite E in E'. injection E' as <- <- <- <- <- <-.
  assert (HR : 0 < 2 ^ lv) by (apply Nat.neq_0_lt_0, Nat.pow_nonzero; lia). set (R := 2 ^ lv) in *.
  replace (nx - 1) with (m * R) by lia. replace (ny - 1) with (k * R) by lia.
  assert (D : forall a b i, a < nx -> b < ny -> (0 < pz (lower N i zT (gp xs ys zs a b)) - pz (lower N (S i) zT (gp xs ys zs a b)))%Qc) by (intros; apply zdown; [auto|apply HZ; auto]).
  repeat match goal with |- _ /\ _ => split end.
  - eapply regular_all; [exact Rl|]. intros i j Hi Hj. cbn beta. split; (split; [reflexivity|split; [reflexivity|split; [reflexivity|]]]).
    + eapply nneg; [apply (D 0 ((k - j) * R) i); nia|apply (IY ((k - S j) * R) ((k - j) * R)); nia|]. unfold normal, lower, gp; cbn [px py pz fst snd]; ring.
    + eapply nneg; [apply (D 0 ((k - S j) * R) i); nia|apply (IY ((k - S j) * R) ((k - j) * R)); nia|]. unfold normal, lower, gp; cbn [px py pz fst snd]; ring.
  - eapply regular_all; [exact Rr|]. intros i j Hi Hj. cbn beta. split; (split; [reflexivity|split; [reflexivity|split; [reflexivity|]]]).
    + eapply npos; [apply (D (m * R) (j * R) i); nia|apply (IY (j * R) (S j * R)); nia|]. unfold normal, lower, gp; cbn [px py pz fst snd]; ring.
    + eapply npos; [apply (D (m * R) (S j * R) i); nia|apply (IY (j * R) (S j * R)); nia|]. unfold normal, lower, gp; cbn [px py pz fst snd]; ring.
  - eapply regular_all; [exact Rf|]. intros i j Hi Hj. cbn beta. split; (split; [reflexivity|split; [reflexivity|split; [reflexivity|]]]).
    + eapply nneg; [apply (D (j * R) 0 i); nia|apply (IX (j * R) (S j * R)); nia|]. unfold normal, lower, gp; cbn [px py pz fst snd]; ring.
    + eapply nneg; [apply (D (S j * R) 0 i); nia|apply (IX (j * R) (S j * R)); nia|]. unfold normal, lower, gp; cbn [px py pz fst snd]; ring.
  - eapply regular_all; [exact Rb|]. intros i j Hi Hj. cbn beta. split; (split; [reflexivity|split; [reflexivity|split; [reflexivity|]]]).
    + eapply npos; [apply (D ((m - j) * R) (k * R) i); nia|apply (IX ((m - S j) * R) ((m - j) * R)); nia|]. unfold normal, lower, gp; cbn [px py pz fst snd]; ring.
    + eapply npos; [apply (D ((m - S j) * R) (k * R) i); nia|apply (IX ((m - S j) * R) ((m - j) * R)); nia|]. unfold normal, lower, gp; cbn [px py pz fst snd]; ring.
  - eapply regular_all; [exact Ro|]. intros i j Hi Hj. cbn beta. split; (split; [reflexivity|split; [reflexivity|split; [reflexivity|]]]).
    + eapply nneg; [apply Qc_sub_pos, (IX (j * R) (S j * R)); nia|apply (IY (i * R) (S i * R)); nia|]. unfold normal; cbn [px py pz fst snd]; ring.
    + eapply nneg; [apply Qc_sub_pos, (IX (j * R) (S j * R)); nia|apply (IY (i * R) (S i * R)); nia|]. unfold normal; cbn [px py pz fst snd]; ring.
  - exact (top_up lv nx ny xs ys zs m k ft IX IY Rt).
Qed.
Print Assumptions C85_outward.

(** *** Cases which meet the hypotheses *)
Definition filesOf (r : res (list off)) : list off := match r with Ok l => l | Er _ => [] end.
Definition exFiles : list off := filesOf (cut_ insertionSort exPts exT 1 exEps).
Definition exTop : off := nth 5 exFiles {| oNv := 0; oNt := 0; oPts := []; oTri := [] |}.
Example ex_accepted : cut_ insertionSort exPts exT 1 exEps = Ok exFiles /\ map (fun f => (oNv f, oNt f)) exFiles = [(16, 18); (16, 18); (12, 12); (12, 12); (12, 12); (35, 14)].
Proof. split; vm_compute; reflexivity. Qed.
(** the edge at the corner of top, front and left occurs on top and in the front *)
Definition pdec (a b : point) : {a = b} + {a <> b}.
Proof.
  destruct a as [[x y] z], b as [[x' y'] z']. destruct (Qc_eq_dec x x') as [E1|E1]; [|right; congruence]. destruct (Qc_eq_dec y y') as [E2|E2]; [|right; congruence].
  destruct (Qc_eq_dec z z') as [E3|E3]; [left|right]; congruence.
Defined.
Example ex_edges : count_occ (pairDec pdec) (flat_map edges exFiles) (gp exX ofNat exZ 0 0, gp exX ofNat exZ 2 0) = 1 /\
  count_occ (pairDec pdec) (flat_map edges exFiles) (gp exX ofNat exZ 2 0, gp exX ofNat exZ 0 0) = 1 /\ length (flat_map edges exFiles) = 258.
Proof. split; [|split]; vm_compute; reflexivity. Qed.
Example ex_generic : generic (Q2Qc (31 # 10)) (Q2Qc (23 # 7)) exTop.
Proof.
  assert (H : forallb (fun e => qlt 0 (leftOf (Q2Qc (31 # 10)) (Q2Qc (23 # 7)) (fst e) (snd e)) || qlt (leftOf (Q2Qc (31 # 10)) (Q2Qc (23 # 7)) (fst e) (snd e)) 0) (edges exTop) = true) by (vm_compute; reflexivity).
  intros p q I E. rewrite forallb_forall in H. specialize (H _ I). cbn [fst snd] in H. rewrite E, qlt_irr in H. exact (diff_false_true H).
Qed.
Example ex_above : forall i j, i < 5 -> j < 7 -> (exT < exZ i j)%Qc.
Proof.
  intros i j _ _. unfold exZ. eapply Qclt_le_trans with (y := ofNat 0); [vm_compute; reflexivity|]. destruct ((i * j) mod 3); [apply Qcle_refl|apply Qclt_le_weak, ofNat_lt; lia].
Qed.

(** ** Limits of the hypotheses *)
Definition unitX (i : nat) : Qc := ofNat i.
Definition flatZ (_ _ : nat) : Qc := 0%Qc.
(** The constructor only checks that the grid consists of whole coarse cells.  A grid without room for the coarsening is accepted, and its surface is not closed. *)
Theorem C85_room_refuted : exists pts zT eps, isGrid pts eps 3 3 unitX unitX flatZ /\ (zT < flatZ 0 0)%Qc /\ (3 - 1) mod 2 ^ 1 = 0 /\ exists fs p q,
  cut_ insertionSort pts zT 1 eps = Ok fs /\ count_occ (pairDec pdec) (flat_map edges fs) (p, q) <> count_occ (pairDec pdec) (flat_map edges fs) (q, p).
Proof.
  exists (gridPts 3 3 unitX unitX flatZ), exT, exEps. split; [|split; [vm_compute; reflexivity|split; [reflexivity|]]].
  - split; [discriminate|]. split; [lia|]. split; [lia|]. split; [|split; [intros; apply ofNat_lt; lia|apply Permutation_refl]].
    intros i Hi. do 2 (destruct i as [|i]; [vm_compute; reflexivity|]). lia.
  - exists (filesOf (cut_ insertionSort (gridPts 3 3 unitX unitX flatZ) exT 1 exEps)), (unitX 0, unitX 0, 0%Qc), (unitX 2, unitX 0, 0%Qc).
    split; [vm_compute; reflexivity|]. vm_compute. discriminate.
Qed.
Print Assumptions C85_room_refuted.

(** Only the highest point is compared to the bottom.  A bottom which cuts the surface is accepted, and triangles of a side are turned inwards. *)
Definition slopeZ (i _ : nat) : Qc := ofNat i.
Theorem C85_height_refuted : exists pts zT eps, suitable pts zT 0 eps 3 3 unitX unitX slopeZ /\ exists fl fr ff fb fo ft a b c,
  cut_ insertionSort pts zT 0 eps = Ok [fl; fr; ff; fb; fo; ft] /\ In (a, b, c) (oTri fl) /\ (0 < px (normal (corner fl a) (corner fl b) (corner fl c)))%Qc.
Proof.
  exists (gridPts 3 3 unitX unitX slopeZ), (Q2Qc (1 # 2)), exEps. split.
  - split; [|split; [exists 2; cbn; lia|split; [exists 2; cbn; lia|split; [lia|exists 2, 0; split; [lia|split; [lia|vm_compute; reflexivity]]]]]].
    split; [discriminate|]. split; [lia|]. split; [lia|]. split; [|split; [intros; apply ofNat_lt; lia|apply Permutation_refl]].
    intros i Hi. do 2 (destruct i as [|i]; [vm_compute; reflexivity|]). lia.
  - set (r := cut_ insertionSort (gridPts 3 3 unitX unitX slopeZ) (Q2Qc (1 # 2)) 0 exEps). set (nf := fun n => nth n (filesOf r) {| oNv := 0; oNt := 0; oPts := []; oTri := [] |}).
    exists (nf 0), (nf 1), (nf 2), (nf 3), (nf 4), (nf 5), 0, 3, 4. split; [vm_compute; reflexivity|]. split; [vm_compute; auto|vm_compute; reflexivity].
Qed.
Print Assumptions C85_height_refuted.

(** The tolerance does not cover deviations of the x-coordinates within a column: these are sorted exactly.  Triangles of the top are turned over. *)
Definition bentX (i j : nat) : Qc := if (i =? 1) && (j =? 0) then Q2Qc (10001 # 10000) else ofNat i.
Theorem C85_tolerance_refuted : exists pts zT eps,
  pts = flat_map (fun i => map (fun j => (bentX i j, ofNat j, 0%Qc)) (seq 0 3)) (seq 0 3) /\ (forall i j, (qabs (bentX i j - ofNat i) < eps)%Qc) /\
  exists fs a b c, cut_ insertionSort pts zT 0 eps = Ok fs /\ In (a, b, c) (oTri (nth 5 fs exTop)) /\
    (pz (normal (corner (nth 5 fs exTop) a) (corner (nth 5 fs exTop) b) (corner (nth 5 fs exTop) c)) < 0)%Qc.
Proof.
  exists (flat_map (fun i => map (fun j => (bentX i j, ofNat j, 0%Qc)) (seq 0 3)) (seq 0 3)), exT, exEps. split; [reflexivity|]. split.
  - intros i j. unfold bentX. destruct ((i =? 1) && (j =? 0)) eqn:E.
    + apply andb_true_iff in E. destruct E as [E _]. apply Nat.eqb_eq in E. subst i. vm_compute. reflexivity.
    + replace (ofNat i - ofNat i)%Qc with 0%Qc by ring. vm_compute. reflexivity.
  - exists (filesOf (cut_ insertionSort (flat_map (fun i => map (fun j => (bentX i j, ofNat j, 0%Qc)) (seq 0 3)) (seq 0 3)) exT 0 exEps)), 1, 4, 5.
    split; [vm_compute; reflexivity|]. split; [vm_compute; auto 10|vm_compute; reflexivity].
Qed.
Print Assumptions C85_tolerance_refuted.

(** ** C86: rows of the sides *)
(** the edge from [p] to [q], if it is vertical, is shorter than [d] *)
Definition short (d : Qc) (p q : point) : Prop := px p = px q -> py p = py q -> (pz p - pz q < d /\ pz q - pz p < d)%Qc.

Lemma Qclt_neq' (a b : Qc) : (a < b)%Qc -> a <> b.
Proof. intros H E. destruct (Qclt_not_eq _ _ H E). Qed.
Lemma short_rows d N K zT (B : nat -> point) f : 0 < N -> (0 < d)%Qc -> regular N K (fun i j => lower N i zT (B j)) f ->
  (forall j, j < K -> ~ (px (B j) = px (B (S j)) /\ py (B j) = py (B (S j)))) -> (forall j, j <= K -> (zT < pz (B j))%Qc /\ (pz (B j) - zT < ofNat N * d)%Qc) ->
  forall p q, In (p, q) (edges f) -> short d p q.
Proof.
  intros HN Hd G HB HZ.
  assert (NN : ofNat N <> 0%Qc) by (intros E; pose proof (ofNat_pos N HN) as K'; rewrite E in K'; destruct (Qclt_not_eq _ _ K'); reflexivity).
  assert (V : forall i j, j <= K -> short d (lower N i zT (B j)) (lower N (S i) zT (B j))).
  { intros i j Hj _ _. destruct (HZ j Hj) as [Z1 Z2].
    assert (D : (pz (lower N i zT (B j)) - pz (lower N (S i) zT (B j)) < d)%Qc).
    { rewrite zdiff by auto. apply Qcnot_le_lt. intros L. apply (Qcmult_le_compat_r _ _ (ofNat N)) in L; [|apply Qclt_le_weak, ofNat_pos; exact HN].
      replace ((pz (B j) - zT) / ofNat N * ofNat N)%Qc with (pz (B j) - zT)%Qc in L by (field; exact NN). rewrite Qcmult_comm in L. exact (Qcle_not_lt _ _ L Z2). }
    split; [exact D|]. eapply Qclt_trans; [|exact Hd]. pose proof (zdown N i zT (B j) HN Z1) as P. apply Qclt_minus_iff. 
    replace (0 + - (pz (lower N (S i) zT (B j)) - pz (lower N i zT (B j))))%Qc with (pz (lower N i zT (B j)) - pz (lower N (S i) zT (B j)))%Qc by ring. exact P. }
  assert (S' : forall p q, short d p q -> short d q p) by (intros p q H X Y; destruct (H (eq_sym X) (eq_sym Y)); split; assumption).
  assert (NV : forall i i' j, j < K -> short d (lower N i zT (B j)) (lower N i' zT (B (S j)))).
  { intros i i' j Hj X Y. destruct (HB j Hj). split; [exact X|exact Y]. }
  assert (A : allTria f (fun a b c => short d a b /\ short d b c /\ short d c a)).
  { eapply regular_all; [exact G|]. intros i j Hi Hj. cbn beta. repeat match goal with |- _ /\ _ => split end;
    first [apply V; lia | apply S', V; lia | apply NV; lia | apply S', NV; lia]. }
  intros p q I. unfold edges in I. apply in_flat_map in I. destruct I as ([[a b] c] & T & I). destruct (A a b c T) as (A1 & A2 & A3).
  destruct I as [I|[I|[I|[]]]]; injection I as <- <-; assumption.
Qed.

(** Vertical edges of the sides are shorter than the spacing of the coarse grid in x-direction, for all numbers of levels, and than that in y-direction, if the grid is not coarsened.
    Missing: the spacing in y-direction of coarsened grids, see below. *)
Theorem C86_rows_partial : forall srt pts zT lv eps nx ny xs ys zs fl fr ff fb fo ft, isSort srt -> suitable pts zT lv eps nx ny xs ys zs ->
  (forall i j, i < nx -> j < ny -> (zT < zs i j)%Qc) -> cut_ srt pts zT lv eps = Ok [fl; fr; ff; fb; fo; ft] ->
  forall f p q, In f [fl; fr; ff; fb] -> In (p, q) (edges f) ->
  (forall l, S l * 2 ^ lv < nx -> short (xs (S l * 2 ^ lv)%nat - xs (l * 2 ^ lv)%nat)%Qc p q) /\
  (lv = 0 -> forall l, S l < ny -> short (ys (S l) - ys l)%Qc p q).
Proof.
  intros srt pts zT lv eps nx ny xs ys zs fl fr ff fb fo ft HS H HZ E f p q F I.
  destruct (suitable_ok _ _ _ _ _ _ _ _ _ _ HS H) as (m & k & Ex & Ey & IX & IY & N & fl' & fr' & ff' & fb' & fo' & ft' & HN & Gx & Gy & E' & Rl & Rr & Rf & Rb & Ro & Rt).
  rewrite E in E'. injection E' as <- <- <- <- <- <-.
  assert (HR : 0 < 2 ^ lv) by (apply Nat.neq_0_lt_0, Nat.pow_nonzero; lia). 
  assert (K : forall d, (0 < d)%Qc -> (forall i j, i < nx -> j < ny -> (zs i j - zT < ofNat N * d)%Qc) -> short d p q).
  { intros d Hd B. set (R := 2 ^ lv) in *. destruct F as [<-|[<-|[<-|[<-|[]]]]].
    - refine (short_rows d N k zT (fun j => gp xs ys zs 0 ((k - j) * R)) fl HN Hd Rl _ _ p q I).
      + intros j Hj [_ Y]. unfold gp in Y. cbn [py fst snd] in Y. symmetry in Y. revert Y. apply Qclt_neq'. apply IY; nia.
      + intros j Hj. split; [apply HZ|apply B]; nia.
    - refine (short_rows d N k zT (fun j => gp xs ys zs (m * R) (j * R)) fr HN Hd Rr _ _ p q I).
      + intros j Hj [_ Y]. unfold gp in Y. cbn [py fst snd] in Y. revert Y. apply Qclt_neq'. apply IY; nia.
      + intros j Hj. split; [apply HZ|apply B]; nia.
    - refine (short_rows d N m zT (fun j => gp xs ys zs (j * R) 0) ff HN Hd Rf _ _ p q I).
      + intros j Hj [X _]. unfold gp in X. cbn [px fst snd] in X. revert X. apply Qclt_neq'. apply IX; nia.
      + intros j Hj. split; [apply HZ|apply B]; nia.
    - refine (short_rows d N m zT (fun j => gp xs ys zs ((m - j) * R) (k * R)) fb HN Hd Rb _ _ p q I).
      + intros j Hj [X _]. unfold gp in X. cbn [px fst snd] in X. symmetry in X. revert X. apply Qclt_neq'. apply IX; nia.
      + intros j Hj. split; [apply HZ|apply B]; nia. }
  split.
  - intros l Hl. apply K; [apply Qc_sub_pos, IX; nia|]. intros i j Hi Hj. apply Gx; auto. nia.
  - intros -> l Hl. cbn [Nat.pow] in *. apply K; [apply Qc_sub_pos, IY; lia|]. intros i j Hi Hj. specialize (Gy i j l Hi Hj ltac:(lia)). rewrite Nat.mul_1_r in Gy. exact Gy.
Qed.
Print Assumptions C86_rows_partial.

Definition mem (e : point * point) (l : list (point * point)) : bool := existsb (fun e' => if pairDec pdec e' e then true else false) l.
Lemma mem_in e l : mem e l = true -> In e l.
Proof. intros M. apply existsb_exists in M. destruct M as (e' & I & D). destruct (pairDec pdec e' e) as [->|]; [exact I|discriminate]. Qed.
(** In y-direction the code subtracts the coordinate of the fine point [l] instead of [l*R]: rows of the sides may be much further apart than the coarse points. *)
Definition bunchY (j : nat) : Qc := nth j [0; Q2Qc 10; Q2Qc 20; Q2Qc (41 # 2); Q2Qc 21]%Qc 0%Qc.
Definition wideX (i : nat) : Qc := ofNat (i * 10).
Theorem C86_rows_refuted : exists pts zT eps, suitable pts zT 1 eps 5 5 wideX bunchY flatZ /\ (forall i j, (zT < flatZ i j)%Qc) /\
  exists fs p q, cut_ insertionSort pts zT 1 eps = Ok fs /\ In (p, q) (edges (nth 0 fs exTop)) /\ ~ short (bunchY 4 - bunchY 2)%Qc p q.
Proof.
  exists (gridPts 5 5 wideX bunchY flatZ), (Q2Qc (-20)), exEps. split; [|split; [intros; vm_compute; reflexivity|]].
  - split; [|split; [exists 2; cbn; lia|split; [exists 2; cbn; lia|split; [lia|exists 0, 0; split; [lia|split; [lia|vm_compute; reflexivity]]]]]].
    split; [discriminate|]. split; [lia|]. split; [lia|]. split; [|split; [|apply Permutation_refl]].
    + intros i Hi. do 4 (destruct i as [|i]; [vm_compute; reflexivity|]). lia.
    + intros i Hi. do 4 (destruct i as [|i]; [vm_compute; reflexivity|]). lia.
  - set (fs := filesOf (cut_ insertionSort (gridPts 5 5 wideX bunchY flatZ) (Q2Qc (-20)) 1 exEps)).
    exists fs, (0%Qc, Q2Qc 21, 0%Qc), (0%Qc, Q2Qc 21, Q2Qc (-10)). split; [vm_compute; reflexivity|]. split.
    + apply mem_in. vm_compute. reflexivity.
    + intros S. destruct (S eq_refl eq_refl) as [L _]. vm_compute in L. discriminate.
Qed.
Print Assumptions C86_rows_refuted.
