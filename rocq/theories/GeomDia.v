(** Geometry of single elements over the real numbers: diameter of the inscribed sphere. *)
From Coq Require Import List Arith Bool Lia Reals Lra Permutation.
From Verif Require Import Util MeshConn MeshSpec GeomV Props_FwaveR GeomProofs GeomEl.
Import ListNotations.
Open Scope R_scope.

(** ** Diameter of the largest inscribed sphere *)
Definition lens (ty : elType) (p : list V) : R := rsum (map (fun i => len (outV ty p i)) (seq 0 (nElFas ty))).
Definition diaR (ty : elType) (p : list V) : R :=
  let P i := nth i p pt0 in
  match ty with
  | TRIA3 => 4 * volR ty p / lens ty p
  | TET4 => 12 * volR ty p / lens ty p
  | QUAD4R => Rmin (px (P 1%nat) - px (P 0%nat)) (py (P 3%nat) - py (P 0%nat))
  | HEX8R => Rmin (Rmin (px (P 1%nat) - px (P 0%nat)) (py (P 3%nat) - py (P 0%nat))) (pz (P 4%nat) - pz (P 0%nat))
  end.

Definition g3 (a b c : V) : R := len (cprod (minus b a) (minus c a)).
Lemma g3_12 a b c : g3 b a c = g3 a b c.
Proof. unfold g3, len. f_equal. destruct a as [[? ?] ?], b as [[? ?] ?], c as [[? ?] ?]. vec. ring. Qed.
Lemma g3_23 a b c : g3 a c b = g3 a b c.
Proof. unfold g3, len. f_equal. destruct a as [[? ?] ?], b as [[? ?] ?], c as [[? ?] ?]. vec. ring. Qed.
Definition g2 (a b : V) : R := len (minus a b).
Lemma g2_12 a b : g2 b a = g2 a b.
Proof. unfold g2, len. f_equal. destruct a as [[? ?] ?], b as [[? ?] ?]. vec. ring. Qed.

Lemma g3_all a b c d k : In k (perms [a; b; c; d]) ->
  g3 (ve k 0) (ve k 1) (ve k 2) + g3 (ve k 0) (ve k 1) (ve k 3) + g3 (ve k 0) (ve k 2) (ve k 3) + g3 (ve k 1) (ve k 2) (ve k 3) = g3 a b c + g3 a b d + g3 a c d + g3 b c d.
Proof.
  intros P.
  assert (C1 : forall x y z : V, g3 x z y = g3 x y z /\ g3 y x z = g3 x y z /\ g3 y z x = g3 x y z /\ g3 z x y = g3 x y z /\ g3 z y x = g3 x y z).
  { intros x y z. assert (E1 := g3_23 x y z). assert (E2 := g3_12 x y z). assert (E3 : g3 y z x = g3 x y z) by (rewrite (g3_23 y x z); exact E2). assert (E4 : g3 z x y = g3 x y z) by (rewrite (g3_12 x z y); exact E1).
    assert (E5 : g3 z y x = g3 x y z) by (rewrite (g3_23 z x y); exact E4). auto. }
  destruct (C1 a b c) as (A1 & A2 & A3 & A4 & A5). destruct (C1 a b d) as (B1 & B2 & B3 & B4 & B5). destruct (C1 a c d) as (D1 & D2 & D3 & D4 & D5). destruct (C1 b c d) as (E1 & E2 & E3 & E4 & E5). clear C1.
  cbn in P. decompose [or] P; try contradiction; subst k; cbn [GeomV.ve nth]; lra.
Qed.

Lemma inDia_ok ty p k : elemR ty p -> Permutation p k -> inDiameter (enOf ty) k = Ok (diaR ty p).
Proof.
  intros E P. assert (VO := volume_ok ty p k E P). destruct ty; cbn [enOf GeomV.inDiameter GeomV.volume] in *.
  - destruct E as (x0 & x1 & y0 & y1 & -> & H1 & H2). unfold quadInDiameter. rewrite (quad_dist x0 x1 y0 y1 k H1 H2 P). cbn [bind fst snd]. rewrite fmn_R. reflexivity.
  - destruct E as (ax & ay & bx & bY & cx & cy & -> & H). unfold triaInDiameter. apply perms_in in P.
    assert (Z : vZ (ve k 0) = 0 /\ vZ (ve k 1) = 0 /\ vZ (ve k 2) = 0) by (cbn in P; decompose [or] P; try contradiction; subst k; repeat split; reflexivity).
    destruct Z as (Z0 & Z1 & Z2). rewrite Z0, Z1, Z2. assert (B : reqb 0 0 = true) by (apply reqb_eq; reflexivity). rewrite B. cbn [check bind]. f_equal. injection VO as ->.
    change (GeomV.norm Rplus Rmult sqrt (vsub Rminus (ve k 0) (ve k 1))) with (g2 (ve k 0) (ve k 1)). change (GeomV.norm Rplus Rmult sqrt (vsub Rminus (ve k 1) (ve k 2))) with (g2 (ve k 1) (ve k 2)). change (GeomV.norm Rplus Rmult sqrt (vsub Rminus (ve k 2) (ve k 0))) with (g2 (ve k 2) (ve k 0)).
    unfold diaR. replace (four 1 Rplus) with 4 by (unfold four, two; ring). unfold Rdiv. f_equal. f_equal.
    set (a := (ax, ay, 0)) in *. set (b := (bx, bY, 0)) in *. set (c := (cx, cy, 0)) in *.
    transitivity (g2 a b + g2 b c + g2 c a).
    + assert (S1 := g2_12 a b). assert (S2 := g2_12 b c). assert (S3 := g2_12 c a). clear - P S1 S2 S3. cbn in P. decompose [or] P; try contradiction; subst k; cbn [GeomV.ve nth]; lra.
    + unfold lens. cbn [nElFas seq map rsum fold_right]. rewrite Rplus_0_r, Rplus_assoc. unfold g2, len, a, b, c. ev. f_equal; [|f_equal]; f_equal; ring.
  - destruct E as (x0 & x1 & y0 & y1 & z0 & z1 & -> & H1 & H2 & H3). unfold hexInDiameter. rewrite (hex_dist x0 x1 y0 y1 z0 z1 k H1 H2 H3 P). cbn [bind]. rewrite !fmn_R. reflexivity.
  - destruct E as (a & b & c & d & -> & H). apply perms_in in P. injection VO as VO. unfold tetInDiameter. rewrite VO. f_equal. unfold diaR. replace (twelve 1 Rplus) with 12 by (unfold twelve, six, four, two; ring). unfold Rdiv. f_equal. f_equal.
    change (faNorm Rplus Rminus Rmult sqrt) with g3. rewrite (g3_all a b c d k P). unfold lens. cbn [nElFas seq map rsum fold_right].
    change (len (outV TET4 [a; b; c; d] 0)) with (g3 a c b). change (len (outV TET4 [a; b; c; d] 1)) with (g3 a b d). change (len (outV TET4 [a; b; c; d] 2)) with (g3 a d c). change (len (outV TET4 [a; b; c; d] 3)) with (g3 b c d).
    rewrite (g3_23 a b c), (g3_23 a c d). ring.
Qed.

Lemma lens_pos ty p : elemR ty p -> 0 < lens ty p.
Proof.
  intros E. unfold lens. assert (H : forall i, (i < nElFas ty)%nat -> 0 < len (outV ty p i)) by (intros i Hi; apply len_pos; apply outV_pos; auto).
  assert (A : forall n, (n <= nElFas ty)%nat -> (0 < n)%nat -> 0 < rsum (map (fun i => len (outV ty p i)) (seq (nElFas ty - n) n))).
  { induction n as [|n IH]; intros L1 L2; [lia|]. cbn [seq map rsum fold_right]. assert (X := H (nElFas ty - S n)%nat ltac:(lia)). destruct n as [|n]; [cbn; lra|].
    replace (S (nElFas ty - S (S n))) with (nElFas ty - S n)%nat by lia. specialize (IH ltac:(lia) ltac:(lia)). cbn [seq map rsum fold_right] in *. lra. }
  specialize (A (nElFas ty) ltac:(lia)). rewrite Nat.sub_diag in A. apply A. destruct ty; cbn; lia.
Qed.

Lemma scaled (ty : elType) p i v : inner (unitV ty p i) v = inner (outV ty p i) v / len (outV ty p i).
Proof. unfold unitV. rewrite inner_scale. unfold Rdiv. ring. Qed.

Lemma inscribed ty p : elemR ty p -> exists c, forall i, (i < nElFas ty)%nat -> inner (unitV ty p i) (minus c (fv ty p i 0)) <= - (diaR ty p / 2).
Proof.
  intros E. assert (PL := fun i Hi => len_pos _ (outV_pos ty p i E Hi)). assert (LP := lens_pos ty p E). destruct ty; cbn [nElFas] in *.
  - destruct E as (x0 & x1 & y0 & y1 & -> & H1 & H2). exists ((x0 + x1) / 2, (y0 + y1) / 2, 0). intros i Hi.
    assert (M1 := Rmin_l (x1 - x0) (y1 - y0)). assert (M2 := Rmin_r (x1 - x0) (y1 - y0)).
    assert (LX : len (x1 - x0, 0, 0) = x1 - x0) by (unfold len; vec; replace ((x1 - x0) * (x1 - x0) + 0 * 0 + 0 * 0) with (Rsqr (x1 - x0)) by (unfold Rsqr; ring); apply sqrt_Rsqr; lra).
    assert (LX' : len (0, y1 - y0, 0) = y1 - y0) by (unfold len; vec; replace (0 * 0 + (y1 - y0) * (y1 - y0) + 0 * 0) with (Rsqr (y1 - y0)) by (unfold Rsqr; ring); apply sqrt_Rsqr; lra).
    assert (K : inner (unitV QUAD4R [(x0, y0, 0); (x1, y0, 0); (x1, y1, 0); (x0, y1, 0)] i) (minus ((x0 + x1) / 2, (y0 + y1) / 2, 0) (fv QUAD4R [(x0, y0, 0); (x1, y0, 0); (x1, y1, 0); (x0, y1, 0)] i 0)) = - ((if Nat.even i then y1 - y0 else x1 - x0) / 2)).
    { rewrite scaled. assert (N : len (outV QUAD4R [(x0, y0, 0); (x1, y0, 0); (x1, y1, 0); (x0, y1, 0)] i) = if Nat.even i then x1 - x0 else y1 - y0).
      { do 4 (destruct i as [|i]; [cbn [Nat.even]; first [rewrite <- LX | rewrite <- LX']; unfold len; ev; f_equal; ring|]). exfalso; lia. }
      rewrite N. clear N. do 4 (destruct i as [|i]; [cbn [Nat.even]; ev; field; lra|]). exfalso; lia. }
    rewrite K. unfold diaR. cbn [nth px py fst snd]. unfold px, py. cbn [fst snd]. destruct (Nat.even i); lra.
  - destruct E as (ax & ay & bx & bY & cx & cy & -> & H). set (p := [(ax, ay, 0); (bx, bY, 0); (cx, cy, 0)]) in *.
    assert (P0 := PL 0%nat ltac:(lia)). assert (P1 := PL 1%nat ltac:(lia)). assert (P2 := PL 2%nat ltac:(lia)).
    assert (LE : lens TRIA3 p = len (outV TRIA3 p 0) + len (outV TRIA3 p 1) + len (outV TRIA3 p 2)) by (unfold lens; cbn [nElFas seq map rsum fold_right]; ring).
    set (l0 := len (outV TRIA3 p 0)) in *. set (l1 := len (outV TRIA3 p 1)) in *. set (l2 := len (outV TRIA3 p 2)) in *.
    exists ((l0 * cx + l1 * ax + l2 * bx) / lens TRIA3 p, (l0 * cy + l1 * ay + l2 * bY) / lens TRIA3 p, 0). intros i Hi. rewrite scaled. unfold diaR. apply Req_le. rewrite LE in *.
    do 3 (destruct i as [|i]; [fold l0 l1 l2; clearbody l0 l1 l2; unfold volR, p; ev; field; split; lra|]). exfalso; lia.
  - destruct E as (x0 & x1 & y0 & y1 & z0 & z1 & -> & H1 & H2 & H3). set (p := [(x0, y0, z0); (x1, y0, z0); (x1, y1, z0); (x0, y1, z0); (x0, y0, z1); (x1, y0, z1); (x1, y1, z1); (x0, y1, z1)]) in *. exists ((x0 + x1) / 2, (y0 + y1) / 2, (z0 + z1) / 2). intros i Hi.
    assert (M1 := Rmin_l (x1 - x0) (y1 - y0)). assert (M2 := Rmin_r (x1 - x0) (y1 - y0)). assert (M3 := Rmin_l (Rmin (x1 - x0) (y1 - y0)) (z1 - z0)). assert (M4 := Rmin_r (Rmin (x1 - x0) (y1 - y0)) (z1 - z0)).
    assert (SQ : forall a b, 0 < a -> 0 < b -> sqrt (a * a * (b * b)) = a * b) by (intros a b Ha Hb; replace (a * a * (b * b)) with (Rsqr (a * b)) by (unfold Rsqr; ring); apply sqrt_Rsqr; nra).
    assert (K : inner (unitV HEX8R p i) (minus ((x0 + x1) / 2, (y0 + y1) / 2, (z0 + z1) / 2) (fv HEX8R p i 0)) = - (nth i [z1 - z0; y1 - y0; x1 - x0; y1 - y0; x1 - x0; z1 - z0] 0 / 2)).
    { rewrite scaled. assert (N : len (outV HEX8R p i) = nth i [(x1 - x0) * (y1 - y0); (x1 - x0) * (z1 - z0); (y1 - y0) * (z1 - z0); (x1 - x0) * (z1 - z0); (y1 - y0) * (z1 - z0); (x1 - x0) * (y1 - y0)] 0).
      { do 6 (destruct i as [|i]; [cbn [nth]; rewrite <- SQ by lra; unfold len, p; ev; f_equal; ring|]). exfalso; lia. }
      rewrite N. clear N. do 6 (destruct i as [|i]; [unfold p; cbn [nth]; ev; field; split; lra|]). exfalso; lia. }
    rewrite K. unfold diaR, p. unfold px, py, pz. cbn [nth fst snd]. do 6 (destruct i as [|i]; [cbn [nth]; lra|]). exfalso; lia.
  - destruct E as (a & b & c & d & -> & H). set (p := [a; b; c; d]) in *.
    assert (P0 := PL 0%nat ltac:(lia)). assert (P1 := PL 1%nat ltac:(lia)). assert (P2 := PL 2%nat ltac:(lia)). assert (P3 := PL 3%nat ltac:(lia)).
    assert (LE : lens TET4 p = len (outV TET4 p 0) + len (outV TET4 p 1) + len (outV TET4 p 2) + len (outV TET4 p 3)) by (unfold lens; cbn [nElFas seq map rsum fold_right]; ring).
    set (l0 := len (outV TET4 p 0)) in *. set (l1 := len (outV TET4 p 1)) in *. set (l2 := len (outV TET4 p 2)) in *. set (l3 := len (outV TET4 p 3)) in *.
    exists (scale (/ lens TET4 p) (plus (plus (scale l0 d) (scale l1 c)) (plus (scale l2 b) (scale l3 a)))). intros i Hi. rewrite scaled. unfold diaR. apply Req_le. rewrite LE in *.
    do 4 (destruct i as [|i]; [fold l0 l1 l2 l3; clearbody l0 l1 l2 l3; unfold volR, p; destruct a as [[? ?] ?], b as [[? ?] ?], c as [[? ?] ?], d as [[? ?] ?]; cbv [plus] in *; ev; field; split; lra|]). exfalso; lia.
Qed.

Lemma finite_dec (f : nat -> R) b n : (exists i, (i < n)%nat /\ b <= f i) \/ forall i, (i < n)%nat -> f i < b.
Proof.
  induction n as [|n IH]; [right; intros; lia|]. destruct IH as [(i & Hi & H)|H]; [left; exists i; split; [lia|exact H]|].
  destruct (Rle_dec b (f n)) as [L|L]; [left; exists n; split; [lia|exact L]|]. right. intros i Hi. destruct (Nat.eq_dec i n) as [->|N]; [lra|]. apply H. lia.
Qed.

Lemma box_value (x0 x1 y0 y1 z0 z1 cx cy cz : R) i : x0 < x1 -> y0 < y1 -> z0 < z1 -> (i < 6)%nat ->
  let p := [(x0, y0, z0); (x1, y0, z0); (x1, y1, z0); (x0, y1, z0); (x0, y0, z1); (x1, y0, z1); (x1, y1, z1); (x0, y1, z1)] in
  inner (unitV HEX8R p i) (minus (cx, cy, cz) (fv HEX8R p i 0)) = nth i [z0 - cz; y0 - cy; cx - x1; cy - y1; x0 - cx; cz - z1] 0.
Proof.
  intros H1 H2 H3 Hi p.
  assert (SQ : forall a b, 0 < a -> 0 < b -> sqrt (a * a * (b * b)) = a * b) by (intros a b Ha Hb; replace (a * a * (b * b)) with (Rsqr (a * b)) by (unfold Rsqr; ring); apply sqrt_Rsqr; nra).
  rewrite scaled. assert (N : len (outV HEX8R p i) = nth i [(x1 - x0) * (y1 - y0); (x1 - x0) * (z1 - z0); (y1 - y0) * (z1 - z0); (x1 - x0) * (z1 - z0); (y1 - y0) * (z1 - z0); (x1 - x0) * (y1 - y0)] 0).
  { do 6 (destruct i as [|i]; [cbn [nth]; rewrite <- SQ by lra; unfold len, p; ev; f_equal; ring|]). exfalso; lia. }
  rewrite N. clear N. do 6 (destruct i as [|i]; [unfold p; cbn [nth]; ev; field; split; lra|]). exfalso; lia.
Qed.

Lemma rect_value (x0 x1 y0 y1 cx cy cz : R) i : x0 < x1 -> y0 < y1 -> (i < 4)%nat ->
  let p := [(x0, y0, 0); (x1, y0, 0); (x1, y1, 0); (x0, y1, 0)] in
  inner (unitV QUAD4R p i) (minus (cx, cy, cz) (fv QUAD4R p i 0)) = nth i [y0 - cy; cx - x1; cy - y1; x0 - cx] 0.
Proof.
  intros H1 H2 Hi p.
  assert (SQ : forall a, 0 < a -> sqrt (a * a) = a) by (intros a Ha; apply sqrt_Rsqr; lra).
  rewrite scaled. assert (N : len (outV QUAD4R p i) = nth i [x1 - x0; y1 - y0; x1 - x0; y1 - y0] 0).
  { do 4 (destruct i as [|i]; [cbn [nth]; match goal with |- _ = ?r => rewrite <- (SQ r) by lra end; unfold len, p; ev; f_equal; ring|]). exfalso; lia. }
  rewrite N. clear N. do 4 (destruct i as [|i]; [unfold p; cbn [nth]; ev; field; lra|]). exfalso; lia.
Qed.

Lemma rsum_lt (f g : nat -> R) n : forall lo, (forall i, (lo <= i < lo + n)%nat -> f i < g i) -> (0 < n)%nat -> rsum (map f (seq lo n)) < rsum (map g (seq lo n)).
Proof.
  induction n as [|n IH]; intros lo H L; [lia|]. cbn [seq map rsum fold_right]. assert (X := H lo ltac:(lia)). destruct n as [|n]; [cbn; lra|].
  specialize (IH (S lo) ltac:(intros; apply H; lia) ltac:(lia)). unfold rsum in IH. lra.
Qed.
Lemma rsum_mul (f : nat -> R) s l : rsum (map (fun i => s * f i) l) = s * rsum (map f l).
Proof. induction l as [|a l IH]; cbn; [ring|]. unfold rsum in IH. rewrite IH. ring. Qed.

Lemma largest ty p c : elemR ty p -> exists i, (i < nElFas ty)%nat /\ - (diaR ty p / 2) <= inner (unitV ty p i) (minus c (fv ty p i 0)).
Proof.
  intros E. destruct (finite_dec (fun i => inner (unitV ty p i) (minus c (fv ty p i 0))) (- (diaR ty p / 2)) (nElFas ty)) as [H|H]; [exact H|exfalso].
  assert (SIM : match ty with TRIA3 | TET4 => True | _ => False end -> False).
  { intros S. assert (G := gauss ty p c E). assert (LP := lens_pos ty p E). rewrite rsum_mul in G.
    assert (X : rsum (map (fun i => diaR ty p / 2 * len (outV ty p i)) (seq 0 (nElFas ty))) < rsum (map (fun i => inner (outV ty p i) (minus (fv ty p i 0) c)) (seq 0 (nElFas ty)))).
    { apply rsum_lt; [|destruct ty; cbn; lia]. intros i Hi. assert (Hi' : (i < nElFas ty)%nat) by lia. specialize (H i Hi'). rewrite scaled in H. assert (P := len_pos _ (outV_pos ty p i E Hi')).
      replace (inner (outV ty p i) (minus (fv ty p i 0) c)) with (- inner (outV ty p i) (minus c (fv ty p i 0))) by (clear; destruct (outV ty p i) as [[? ?] ?], c as [[? ?] ?], (fv ty p i 0) as [[? ?] ?]; vec; ring).
      set (l := len (outV ty p i)) in *. set (y := inner (outV ty p i) (minus c (fv ty p i 0))) in *. clearbody l y. set (D := diaR ty p / 2) in *. clearbody D. clear - P H. apply (Rmult_lt_compat_r l) in H; [|exact P]. replace (y / l * l) with y in H by (field; lra). lra. }
    rewrite rsum_mul in X. fold (lens ty p) in X. destruct ty; try contradiction; unfold diaR in X; cbn [nDis fac INR] in G; set (L := lens _ p) in *; set (Vo := volR _ p) in *; set (Q := rsum _) in *; clearbody L Vo Q.
    - replace (4 * Vo / L / 2 * L) with (2 * Vo) in X by (field; lra). lra.
    - replace (12 * Vo / L / 2 * L) with (6 * Vo) in X by (field; lra). lra. }
  destruct c as [[cx cy] cz]. destruct ty; cbn [nElFas] in *; auto.
  - destruct E as (x0 & x1 & y0 & y1 & -> & H1 & H2). assert (V0 := H 0%nat ltac:(lia)). assert (V1 := H 1%nat ltac:(lia)). assert (V2 := H 2%nat ltac:(lia)). assert (V3 := H 3%nat ltac:(lia)).
    rewrite rect_value in V0, V1, V2, V3 by (auto; lia). cbn [nth] in *. unfold diaR, px, py in *. cbn [nth fst snd] in *. unfold Rmin in *. destruct (Rle_dec _ _); lra.
  - destruct E as (x0 & x1 & y0 & y1 & z0 & z1 & -> & H1 & H2 & H3). assert (V0 := H 0%nat ltac:(lia)). assert (V1 := H 1%nat ltac:(lia)). assert (V2 := H 2%nat ltac:(lia)). assert (V3 := H 3%nat ltac:(lia)). assert (V4 := H 4%nat ltac:(lia)). assert (V5 := H 5%nat ltac:(lia)).
    rewrite box_value in V0, V1, V2, V3, V4, V5 by (auto; lia). cbn [nth] in *. unfold diaR, px, py, pz in *. cbn [nth fst snd] in *. unfold Rmin in *. repeat destruct (Rle_dec _ _); lra.
Qed.
