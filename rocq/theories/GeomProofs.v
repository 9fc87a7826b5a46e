(** Geometry of single entities over the real numbers. *)
From Coq Require Import List Arith Bool Lia Reals Lra Permutation.
From Verif Require Import Util MeshConn MeshSpec GeomV Props_FwaveR.
Import ListNotations.
Open Scope R_scope.

Definition V : Type := R * R * R.

(** ** Specification: vectors *)
Definition px (a : V) : R := fst (fst a).
Definition py (a : V) : R := snd (fst a).
Definition pz (a : V) : R := snd a.
Definition minus (a b : V) : V := (px a - px b, py a - py b, pz a - pz b).
Definition plus (a b : V) : V := (px a + px b, py a + py b, pz a + pz b).
Definition scale (s : R) (a : V) : V := (s * px a, s * py a, s * pz a).
Definition inner (a b : V) : R := px a * px b + py a * py b + pz a * pz b.
Definition cprod (a b : V) : V := (py a * pz b - pz a * py b, pz a * px b - px a * pz b, px a * py b - py a * px b).
Definition len (a : V) : R := sqrt (inner a a).

Definition reqb (a b : R) : bool := if Req_EM_T a b then true else false.
Lemma reqb_eq a b : reqb a b = true <-> a = b.
Proof. unfold reqb. destruct (Req_EM_T a b); split; auto; discriminate. Qed.

Notation ve := (GeomV.ve 0).
Notation normalize := (GeomV.normalize 0 Rplus Rmult Rdiv sqrt rltb).
Notation triaTangents := (GeomV.triaTangents 0 Rplus Rminus Rmult Rdiv Ropp sqrt rltb).
Notation triaNormal := (GeomV.triaNormal 0 Rplus Rminus Rmult Rdiv Ropp sqrt rltb).
Notation triaArea := (GeomV.triaArea 0 1 Rplus Rminus Rmult Rdiv sqrt).
Notation lineNormal := (GeomV.lineNormal 0 1 Rplus Rminus Rmult Rdiv Ropp sqrt rltb).
Notation lineTangent := (GeomV.lineTangent 0 1 Rplus Rminus Rmult Rdiv Ropp sqrt rltb).
Notation lineLength := (GeomV.lineLength 0 Rplus Rminus Rmult sqrt).

(** ** Vectors *)
Ltac vec := unfold minus, plus, scale, inner, cprod, px, py, pz in *; cbn [fst snd] in *.

Lemma V_eq (a b c a' b' c' : R) : a = a' -> b = b' -> c = c' -> (a, b, c) = (a', b', c').
Proof. intros -> -> ->. reflexivity. Qed.

Lemma inner_pos a : 0 <= inner a a.
Proof. destruct a as [[x y] z]. vec. nra. Qed.
Lemma inner_zero a : inner a a = 0 -> a = (0, 0, 0).
Proof. destruct a as [[x y] z]. vec. intros H. apply V_eq; nra. Qed.
Lemma len_pos a : 0 < inner a a -> 0 < len a.
Proof. apply sqrt_lt_R0. Qed.
Lemma len_sq a : len a * len a = inner a a.
Proof. apply sqrt_sqrt. apply inner_pos. Qed.
Lemma len_opp a : len (scale (-1) a) = len a.
Proof. unfold len. f_equal. destruct a as [[x y] z]. vec. ring. Qed.

Lemma normalize_eq a : 0 < inner a a -> normalize a = scale (/ len a) a.
Proof.
  intros H. unfold GeomV.normalize. change (dot Rplus Rmult a a) with (inner a a). apply rltb_lt in H. rewrite H. destruct a as [[x y] z]. unfold GeomV.norm. change (dot Rplus Rmult (x, y, z) (x, y, z)) with (inner (x, y, z) (x, y, z)).
  fold (len (x, y, z)). unfold vX, vY, vZ. unfold scale, px, py, pz. cbn [fst snd]. unfold Rdiv. apply V_eq; ring.
Qed.

Lemma unit_len s a : s * s * inner a a = 1 -> inner (scale s a) (scale s a) = 1.
Proof. intros H. rewrite <- H. destruct a as [[x y] z]. vec. ring. Qed.
Lemma unit_inv a : 0 < inner a a -> inner (scale (/ len a) a) (scale (/ len a) a) = 1.
Proof. intros H. apply unit_len. assert (P := len_pos a H). rewrite <- len_sq. field. lra. Qed.

(** ** Triangles (and the first three vertices of rectangles) *)
Lemma tria_key (a b c np N0 : V) (r : list V) : (cprod (minus b a) (minus c a) = N0 \/ cprod (minus b a) (minus c a) = scale (-1) N0) ->
  0 < inner N0 N0 -> inner N0 (minus np a) < 0 ->
  exists t0 t1, triaTangents (a :: b :: c :: r) np = (t0, t1) /\ inner t0 t0 = 1 /\ inner t1 t1 = 1 /\ inner t0 t1 = 0 /\ cprod t0 t1 = scale (/ len N0) N0.
Proof.
  intros HC HN HP. unfold GeomV.triaTangents. cbn [GeomV.ve nth].
  set (d0 := GeomV.vsub Rminus b a). set (d1 := GeomV.vsub Rminus c a). change (minus b a) with d0 in HC. change (minus c a) with d1 in HC.
  change (GeomV.dot Rplus Rmult) with inner. change (GeomV.cross Rminus Rmult) with cprod. change (GeomV.vsub Rminus np a) with (minus np a).
  change (GeomV.vadd Rplus) with plus. change (GeomV.vscale Rmult) with scale.
  set (C := cprod d0 d1) in *.
  assert (CC : inner C C = inner N0 N0). { destruct HC as [->| ->]; [reflexivity|]. destruct N0 as [[x y] z]. vec. ring. }
  assert (D0 : 0 < inner d0 d0). { assert (X := inner_pos d0). destruct (Rlt_dec 0 (inner d0 d0)) as [|N]; auto. exfalso. assert (Z : d0 = (0, 0, 0)) by (apply inner_zero; lra).
    rewrite <- CC in HN. unfold C in HN. rewrite Z in HN. clear -HN. destruct d1 as [[x y] z]. vec. nra. }
  set (al := - inner d0 d1 / inner d0 d0). set (n0 := plus d1 (scale al d0)).
  assert (O : inner d0 n0 = 0). { unfold n0, al. clear -D0. destruct d0 as [[x y] z], d1 as [[x' y'] z']. vec. field. lra. }
  assert (CN : cprod d0 n0 = C). { unfold n0, C. clear. destruct d0 as [[x y] z], d1 as [[x' y'] z']. vec. apply V_eq; ring. }
  assert (LG : inner d0 d0 * inner n0 n0 = inner C C). { rewrite <- CN. transitivity (inner (cprod d0 n0) (cprod d0 n0) + inner d0 n0 * inner d0 n0); [|rewrite O; ring]. clear. destruct d0 as [[x y] z], n0 as [[x' y'] z']. vec. ring. }
  assert (N1 : 0 < inner n0 n0). { assert (X := inner_pos n0). destruct (Rlt_dec 0 (inner n0 n0)) as [|N]; auto. exfalso. rewrite <- CC, <- LG in HN. replace (inner n0 n0) with 0 in HN by lra. lra. }
  assert (LL : len d0 * len n0 = len N0). { unfold len. rewrite <- sqrt_mult by lra. rewrite LG, CC. reflexivity. }
  rewrite (normalize_eq n0 N1), (normalize_eq d0 D0). assert (P0 := len_pos _ D0). assert (P1 := len_pos _ N1). assert (P2 := len_pos _ HN).
  assert (U0 := unit_inv d0 D0). assert (U1 := unit_inv n0 N1).
  assert (O' : inner (scale (/ len d0) d0) (scale (/ len n0) n0) = 0). { transitivity (/ len d0 * / len n0 * inner d0 n0); [|rewrite O; ring]. clear. destruct d0 as [[x y] z], n0 as [[x' y'] z']. vec. ring. }
  assert (CS : cprod (scale (/ len d0) d0) (scale (/ len n0) n0) = scale (/ len N0) C). { rewrite <- LL, <- CN. rewrite Rinv_mult. generalize (/ len d0) as p, (/ len n0) as q. clear. intros. destruct d0 as [[x y] z], n0 as [[x' y'] z']. vec. apply V_eq; ring. }
  rewrite CS.
  assert (IP : 0 < / len N0) by (apply Rinv_0_lt_compat; auto).
  destruct HC as [E|E]; rewrite E in *; match goal with |- context [rltb 0 ?d] => set (dp := d) end.
  - assert (L : rltb 0 dp = false). { apply rltb_le. unfold dp. replace (inner (scale (/ len N0) N0) (minus np a)) with (/ len N0 * inner N0 (minus np a)); [clear -IP HP; set (i := / len N0) in *; set (y := inner N0 (minus np a)) in *; clearbody i y; nra|]. clear. destruct N0 as [[x y] z], (minus np a) as [[x' y'] z']. vec. ring. }
    rewrite L. eauto 8.
  - assert (L : rltb 0 dp = true). { apply rltb_lt. unfold dp. replace (inner (scale (/ len N0) (scale (-1) N0)) (minus np a)) with (- (/ len N0 * inner N0 (minus np a))); [clear -IP HP; set (i := / len N0) in *; set (y := inner N0 (minus np a)) in *; clearbody i y; nra|]. clear. destruct N0 as [[x y] z], (minus np a) as [[x' y'] z']. vec. ring. }
    rewrite L. eexists. eexists. split; [reflexivity|]. split; [exact U1|]. split; [exact U0|]. split.
    + rewrite <- O'. clear. generalize (scale (/ len d0) d0), (scale (/ len n0) n0). intros [[x y] z] [[x' y'] z']. vec. ring.
    + transitivity (scale (-1) (scale (/ len N0) (scale (-1) N0))).
      * rewrite <- CS. clear. generalize (scale (/ len d0) d0), (scale (/ len n0) n0). intros [[x y] z] [[x' y'] z']. vec. apply V_eq; ring.
      * clear. destruct N0 as [[x y] z]. vec. apply V_eq; ring.
Qed.

Lemma tria_area (a b c N0 : V) (r : list V) : (cprod (minus b a) (minus c a) = N0 \/ cprod (minus b a) (minus c a) = scale (-1) N0) ->
  triaArea (a :: b :: c :: r) = len N0 / 2.
Proof.
  intros H. unfold GeomV.triaArea. cbn [GeomV.ve nth]. change (GeomV.vsub Rminus) with minus. change (GeomV.cross Rminus Rmult) with cprod.
  change (GeomV.norm Rplus Rmult sqrt (cprod (minus b a) (minus c a))) with (len (cprod (minus b a) (minus c a))). unfold two. f_equal. destruct H as [->| ->]; auto. apply len_opp.
Qed.

(** ** Lines *)
Definition ez : V := (0, 0, 1).

Lemma line_key (a b np N0 : V) (r : list V) : (cprod (minus b a) ez = N0 \/ cprod (minus b a) ez = scale (-1) N0) -> 0 < inner N0 N0 -> inner N0 (minus np a) < 0 ->
  lineNormal (a :: b :: r) np = scale (/ len N0) N0 /\ lineTangent (a :: b :: r) np = cprod ez (scale (/ len N0) N0).
Proof.
  intros HC HN HP.
  assert (K : lineNormal (a :: b :: r) np = scale (/ len N0) N0).
  { unfold GeomV.lineNormal. cbn [GeomV.ve nth]. destruct a as [[x y] z], b as [[x' y'] z'], np as [[u v] w]. unfold vX, vY, vZ. cbn [fst snd].
    set (dx := x' - x) in *. set (dy := y' - y) in *. assert (N0z : pz N0 = 0). { destruct HC as [<- | E]; [unfold ez; vec; ring|]. destruct N0 as [[p q] s]. unfold ez in E. vec. injection E as _ _ E. lra. }
    assert (SQ : inner N0 N0 = dx * dx + dy * dy). { destruct HC as [<- | E]; [unfold ez; vec; fold dx dy; ring|]. destruct N0 as [[p q] s]. unfold ez in E. vec. fold dx dy in E. injection E as E1 E2 E3. nra. }
    assert (LN : sqrt (dx * dx + dy * dy) = len N0) by (unfold len; rewrite SQ; reflexivity). rewrite LN.
    assert (L : rltb 0 (dx * dx + dy * dy) = true) by (apply rltb_lt; rewrite <- SQ; exact HN). rewrite L. assert (P := len_pos _ HN). assert (IP := Rinv_0_lt_compat _ P).
    unfold Rdiv. set (i := / len N0) in *. destruct N0 as [[p q] s]. vec. subst s.
    destruct HC as [E|E]; unfold ez in E; vec; fold dx dy in E; injection E as E1 E2.
    - assert (p = dy) by lra. assert (q = - dx) by lra. subst p q.
      assert (B : rltb 0 (- (dy * i) * (u - x) + dx * i * (v - y)) = true) by (apply rltb_lt; nra). rewrite B. apply V_eq; ring.
    - assert (p = - dy) by lra. assert (q = dx) by lra. subst p q.
      assert (B : rltb 0 (- (dy * i) * (u - x) + dx * i * (v - y)) = false) by (apply rltb_le; nra). rewrite B. apply V_eq; ring. }
  split; [exact K|]. unfold GeomV.lineTangent. rewrite K. unfold vX, vY, ez. destruct (scale _ _) as [[p q] s]. vec. apply V_eq; ring.
Qed.

Lemma line_area (a b N0 : V) (r : list V) : pz a = pz b -> (cprod (minus b a) ez = N0 \/ cprod (minus b a) ez = scale (-1) N0) -> lineLength (a :: b :: r) = len N0.
Proof.
  intros Z H. unfold GeomV.lineLength. cbn [GeomV.ve nth]. destruct a as [[x y] z], b as [[x' y'] z']. unfold vX, vY, vZ. vec. subst z'.
  transitivity (len (cprod (minus (x', y', z) (x, y, z)) ez)).
  - unfold len. f_equal. unfold ez. vec. ring.
  - destruct H as [<- | E]; [reflexivity|]. vec. rewrite E. apply (len_opp N0).
Qed.

(** ** Vectors orthogonal to a face *)
Lemma orth_unique (u w n : V) : inner n u = 0 -> inner n w = 0 -> 0 < inner (cprod u w) (cprod u w) ->
  n = scale (inner n (cprod u w) / inner (cprod u w) (cprod u w)) (cprod u w).
Proof.
  intros Hu Hw HC. set (C := cprod u w) in *.
  assert (K : scale (inner C C) n = scale (inner n C) C).
  { destruct n as [[nx ny] nz], u as [[ux uy] uz], w as [[wx wy] wz]. unfold C. vec. apply V_eq.
    - transitivity ((nx * (uy * wz - uz * wy) + ny * (uz * wx - ux * wz) + nz * (ux * wy - uy * wx)) * (uy * wz - uz * wy) + (nx * ux + ny * uy + nz * uz) * (wz * (ux * wz - uz * wx) + wy * (ux * wy - uy * wx)) - (nx * wx + ny * wy + nz * wz) * (uz * (ux * wz - uz * wx) + uy * (ux * wy - uy * wx))); [ring|]. rewrite Hu, Hw. ring.
    - transitivity ((nx * (uy * wz - uz * wy) + ny * (uz * wx - ux * wz) + nz * (ux * wy - uy * wx)) * (uz * wx - ux * wz) + (nx * ux + ny * uy + nz * uz) * (wz * (uy * wz - uz * wy) - wx * (ux * wy - uy * wx)) - (nx * wx + ny * wy + nz * wz) * (uz * (uy * wz - uz * wy) - ux * (ux * wy - uy * wx))); [ring|]. rewrite Hu, Hw. ring.
    - transitivity ((nx * (uy * wz - uz * wy) + ny * (uz * wx - ux * wz) + nz * (ux * wy - uy * wx)) * (ux * wy - uy * wx) - (nx * ux + ny * uy + nz * uz) * (wx * (ux * wz - uz * wx) + wy * (uy * wz - uz * wy)) + (nx * wx + ny * wy + nz * wz) * (ux * (ux * wz - uz * wx) + uy * (uy * wz - uz * wy))); [ring|]. rewrite Hu, Hw. ring. }
  clearbody C. clear Hu Hw u w. destruct n as [[nx ny] nz], C as [[cx cy] cz]. vec. injection K as K1 K2 K3. set (s := cx * cx + cy * cy + cz * cz) in *. set (d := nx * cx + ny * cy + nz * cz) in *.
  apply V_eq; apply (Rmult_eq_reg_l s); try lra; [rewrite K1|rewrite K2|rewrite K3]; field; lra.
Qed.

Lemma outward_unique (u w n N0 q : V) : N0 = cprod u w -> 0 < inner N0 N0 -> inner n u = 0 -> inner n w = 0 -> inner n n = 1 -> inner n q <= 0 -> inner N0 q < 0 ->
  n = scale (/ len N0) N0.
Proof.
  intros EN HN Hu Hw H1 Hq Nq. assert (K := orth_unique u w n Hu Hw). rewrite <- EN in K. specialize (K HN). set (l := inner n N0 / inner N0 N0) in *.
  assert (P := len_pos _ HN). assert (S := len_sq N0).
  assert (L2 : l * l * inner N0 N0 = 1). { rewrite <- H1. rewrite K. clear. destruct N0 as [[x y] z]. vec. ring. }
  assert (LQ : inner n q = l * inner N0 q). { rewrite K at 1. clear. destruct N0 as [[x y] z], q as [[x' y'] z']. vec. ring. }
  assert (L0 : 0 <= l) by nra. rewrite K. f_equal. apply (Rmult_eq_reg_r (len N0)); [|lra]. rewrite Rinv_l by lra. rewrite <- S in L2.
  assert (G : 0 <= l * len N0) by (apply Rmult_le_pos; lra). assert (F : (l * len N0 - 1) * (l * len N0 + 1) = 0) by (ring_simplify; ring_simplify in L2; lra). apply Rmult_integral in F. lra.
Qed.

(** ** Permutations *)
Fixpoint inserts {A} (a : A) (l : list A) : list (list A) :=
  match l with [] => [[a]] | b :: r => (a :: l) :: map (cons b) (inserts a r) end.
Fixpoint perms {A} (l : list A) : list (list A) :=
  match l with [] => [[]] | a :: r => flat_map (inserts a) (perms r) end.
Lemma inserts_in {A} (a : A) k1 : forall k2, In (k1 ++ a :: k2) (inserts a (k1 ++ k2)).
Proof. induction k1 as [|b k1 IH]; intros k2; cbn; [destruct k2; left; reflexivity|]. right. apply in_map. apply IH. Qed.
Lemma perms_in {A} (l : list A) : forall k, Permutation l k -> In k (perms l).
Proof.
  induction l as [|a l IH]; intros k H; cbn.
  - apply Permutation_nil in H. subst. left. reflexivity.
  - assert (I : In a k) by (apply (Permutation_in a H); left; reflexivity). apply in_split in I as (k1 & k2 & ->). apply Permutation_cons_app_inv in H.
    apply in_flat_map. exists (k1 ++ k2). split; [apply IH; exact H|]. apply inserts_in.
Qed.
