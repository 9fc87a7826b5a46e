(** Proofs about the triangulations of EDGEcut: sums over the directed edges of triangles reduce to the boundary of the grid. *)
From Coq Require Import QArith Qcanon.
From Verif Require Import Util Extrude.
Open Scope nat_scope.

(** ** Sums *)
Fixpoint rs (f : nat -> Z) (n : nat) : Z := match n with O => 0%Z | S n => (rs f n + f n)%Z end.
Lemma rs_ext f g n : (forall i, i < n -> f i = g i) -> rs f n = rs g n.
Proof. induction n as [|n IH]; intros H; cbn [rs]; auto. rewrite IH, H by auto. reflexivity. Qed.
Lemma rs_add f g n : rs (fun i => f i + g i)%Z n = (rs f n + rs g n)%Z.
Proof. induction n as [|n IH]; cbn [rs]; [reflexivity|rewrite IH; ring]. Qed.
Lemma rs_opp f n : rs (fun i => - f i)%Z n = (- rs f n)%Z.
Proof. induction n as [|n IH]; cbn [rs]; [reflexivity|rewrite IH; ring]. Qed.
Lemma rs_tel f n : rs (fun i => f (S i) - f i)%Z n = (f n - f 0%nat)%Z.
Proof. induction n as [|n IH]; cbn [rs]; [ring|rewrite IH; ring]. Qed.
Lemma rs_S f n : rs f (S n) = (f 0%nat + rs (fun i => f (S i)) n)%Z.
Proof. induction n as [|n IH]; [cbn; ring|]. cbn [rs] in *. rewrite IH. ring. Qed.
Lemma rs_double f n : rs f (2 * n) = rs (fun i => f (2 * i)%nat + f (2 * i + 1)%nat)%Z n.
Proof.
  induction n as [|n IH]; [reflexivity|]. replace (2 * S n) with (S (S (2 * n))) by lia. cbn [rs]. rewrite IH.
  replace (S (2 * n)) with (2 * n + 1) by lia. ring.
Qed.
Lemma rs_rev f n : rs (fun i => f (n - 1 - i)) n = rs f n.
Proof.
  induction n as [|n IH]; [reflexivity|]. rewrite rs_S. cbn [rs].
  rewrite (rs_ext _ (fun i => f (n - 1 - i))); [rewrite IH; replace (S n - 1 - 0) with n by lia; ring|]. intros i Hi. f_equal. lia.
Qed.

Definition val (F : nat -> nat -> Z) (t : tria) : Z := let '(a, b, c) := t in (F a b + F b c + F c a)%Z.
Fixpoint tot (F : nat -> nat -> Z) (l : list tria) : Z := match l with [] => 0%Z | t :: l => (val F t + tot F l)%Z end.
Lemma tot_app F l m : tot F (l ++ m) = (tot F l + tot F m)%Z.
Proof. induction l as [|t l IH]; cbn [app tot]; [ring|rewrite IH; ring]. Qed.

(** ** Loops *)
Lemma steps_eq lo n st : 0 < st -> steps lo (lo + n * st) st = map (fun k => lo + k * st) (seq 0 n).
Proof.
  intros H. unfold steps. replace ((lo + n * st - lo + st - 1) / st) with n; auto.
  replace (lo + n * st - lo + st - 1) with (n * st + (st - 1)) by lia. rewrite Nat.div_add_l by lia. rewrite Nat.div_small by lia. lia.
Qed.
Lemma ofor_map f g l : ofor f (map g l) = ofor (fun k => f (g k)) l.
Proof. induction l as [|a l IH]; cbn [map ofor]; [reflexivity|rewrite IH; reflexivity]. Qed.
Lemma ofor_snoc f n : forall a, snd (ofor f (seq a (S n))) = snd (ofor f (seq a n)) ++ snd (f (a + n)).
Proof.
  induction n as [|n IH]; intros a; [cbn; rewrite Nat.add_0_r, app_nil_r; reflexivity|].
  change (seq a (S (S n))) with (a :: seq (S a) (S n)). change (seq a (S n)) with (a :: seq (S a) n). cbn [ofor]. unfold oapp. cbn [snd].
  rewrite IH, app_assoc. replace (S a + n) with (a + S n) by lia. reflexivity.
Qed.
Lemma tot_ofor F f n : tot F (snd (ofor f (seq 0 n))) = rs (fun k => tot F (snd (f k))) n.
Proof. induction n as [|n IH]; [reflexivity|]. rewrite ofor_snoc, tot_app, IH. cbn [rs Nat.add]. reflexivity. Qed.
Lemma in_ofor f l t : In t (snd (ofor f l)) <-> exists k, In k l /\ In t (snd (f k)).
Proof.
  induction l as [|a l IH]; cbn [ofor]; [cbn; firstorder|]. unfold oapp. cbn [snd]. rewrite in_app_iff, IH. cbn [In].
  split; [intros [H|(k & H & H')]; [exists a|exists k]; auto|]. intros (k & [<-|H] & H'); [left|right]; eauto.
Qed.

(** returned numbers are the numbers of written triangles *)
Definition cnt (o : outp) : Prop := fst o = length (snd o).
Lemma cnt_app a b : cnt a -> cnt b -> cnt (a +++ b).
Proof. unfold cnt, oapp. cbn. intros -> ->. rewrite app_length. reflexivity. Qed.
Lemma cnt_for f l : (forall i, cnt (f i)) -> cnt (ofor f l).
Proof. intros H. induction l; cbn [ofor]; [reflexivity|apply cnt_app; auto]. Qed.

Lemma usubs_ok a l : list_sum l <= a -> usubs a l = Ok (a - list_sum l).
Proof.
  revert a. induction l as [|b l IH]; intros a H; cbn [usubs list_sum fold_right] in *; [f_equal; lia|].
  fold (list_sum l) in *. destruct (Nat.leb_spec b a); [|lia]. rewrite IH by lia. f_equal. lia.
Qed.

(** ** Orientation *)
Definition orient (a b c : Qc * Qc) : Qc := ((fst b - fst a) * (snd c - snd a) - (fst c - fst a) * (snd b - snd a))%Qc.
Definition incr (X : nat -> Qc) (n : nat) : Prop := forall i j, i < j -> j < n -> (X i < X j)%Qc.
(** vertices are points of the grid; counter-clockwise for all spacings *)
Definition good (nx ny : nat) (t : tria) : Prop := exists x1 y1 x2 y2 x3 y3,
  (x1 < nx /\ x2 < nx /\ x3 < nx) /\ (y1 < ny /\ y2 < ny /\ y3 < ny) /\ t = (x1 * ny + y1, x2 * ny + y2, x3 * ny + y3) /\
  forall X Y, incr X nx -> incr Y ny -> (0 < orient (X x1, Y y1) (X x2, Y y2) (X x3, Y y3))%Qc.

Lemma Qc_sub_pos (a b : Qc) : (a < b)%Qc -> (0 < b - a)%Qc.
Proof. intros H. apply Qclt_minus_iff in H. exact H. Qed.
Lemma Qc_mul_pos (a b : Qc) : (0 < a)%Qc -> (0 < b)%Qc -> (0 < a * b)%Qc.
Proof. intros A B. replace 0%Qc with (0 * b)%Qc by ring. apply Qcmult_lt_compat_r; assumption. Qed.
Lemma prod_pos (e a b c d : Qc) : (a < b)%Qc -> (c < d)%Qc -> e = ((b - a) * (d - c))%Qc -> (0 < e)%Qc.
Proof. intros A B ->. apply Qc_mul_pos; apply Qc_sub_pos; assumption. Qed.

Ltac goodOne x1 y1 x2 y2 x3 y3 a b c d := exists x1, y1, x2, y2, x3, y3;
  split; [lia|]; split; [lia|]; split; [apply (f_equal2 pair); [apply (f_equal2 pair)|]; ring|]; intros X Y HX HY; unfold orient; cbn [fst snd];
  apply (prod_pos _ (X a) (X b) (Y c) (Y d)); [apply HX; lia|apply HY; lia|ring].

Section Grid.
Variable F : nat -> nat -> Z.
Hypothesis anti : forall a b, F a b = (- F b a)%Z.
Variable ny : nat.
Definition fe (x y x' y' : nat) : Z := F (x * ny + y) (x' * ny + y').
Lemma fe_anti x y x' y' : fe x y x' y' = (- fe x' y' x y)%Z.
Proof. apply anti. Qed.

(** outline of a cell *)
Lemma tot_BlTr o x y s : o = x * ny + y -> tot F (snd (triasBlTr o (s * ny) s)) =
  (fe x y (x + s) y + fe (x + s) y (x + s) (y + s) + fe (x + s) (y + s) x (y + s) + fe x (y + s) x y)%Z.
Proof.
  intros ->. cbn [snd tot val triasBlTr]. unfold fe.
  replace (x * ny + y + s * ny + s) with ((x + s) * ny + (y + s)) by ring. replace (x * ny + y + s * ny) with ((x + s) * ny + y) by ring.
  replace (x * ny + y + s) with (x * ny + (y + s)) by ring. rewrite (anti ((x + s) * ny + (y + s)) (x * ny + y)). ring.
Qed.
Lemma tot_BrTl o x y s : o = x * ny + y -> tot F (snd (triasBrTl o (s * ny) s)) =
  (fe x y (x + s) y + fe (x + s) y (x + s) (y + s) + fe (x + s) (y + s) x (y + s) + fe x (y + s) x y)%Z.
Proof.
  intros ->. cbn [snd tot val triasBrTl]. unfold fe.
  replace (x * ny + y + s * ny + s) with ((x + s) * ny + (y + s)) by ring. replace (x * ny + y + s * ny) with ((x + s) * ny + y) by ring.
  replace (x * ny + y + s) with (x * ny + (y + s)) by ring. rewrite (anti (x * ny + (y + s)) ((x + s) * ny + y)). ring.
Qed.
Ltac pts x y h :=
  replace (x * ny + y + 2 * (h * ny) + 1 * h) with ((x + 2 * h) * ny + (y + h)) by ring;
  replace (x * ny + y + 2 * (h * ny) + 2 * h) with ((x + 2 * h) * ny + (y + 2 * h)) by ring;
  replace (x * ny + y + 1 * (h * ny) + 2 * h) with ((x + h) * ny + (y + 2 * h)) by ring;
  replace (x * ny + y + 2 * (h * ny)) with ((x + 2 * h) * ny + y) by ring;
  replace (x * ny + y + 1 * (h * ny)) with ((x + h) * ny + y) by ring;
  replace (x * ny + y + 1 * h) with (x * ny + (y + h)) by ring;
  replace (x * ny + y + 2 * h) with (x * ny + (y + 2 * h)) by ring.
Lemma tot_Cr o x y h : o = x * ny + y -> tot F (snd (triasCr o (h * ny) h)) =
  (fe x y (x + 2 * h) y + (fe (x + 2 * h) y (x + 2 * h) (y + h) + fe (x + 2 * h) (y + h) (x + 2 * h) (y + 2 * h)) + fe (x + 2 * h) (y + 2 * h) x (y + 2 * h) + fe x (y + 2 * h) x y)%Z.
Proof.
  intros ->. cbn [snd tot val triasCr]. unfold fe. pts x y h.
  rewrite (anti ((x + 2 * h) * ny + (y + h)) (x * ny + y)), (anti (x * ny + (y + 2 * h)) ((x + 2 * h) * ny + (y + h))). ring.
Qed.
Lemma tot_Cl o x y h : o = x * ny + y -> tot F (snd (triasCl o (h * ny) h)) =
  (fe x y (x + 2 * h) y + fe (x + 2 * h) y (x + 2 * h) (y + 2 * h) + fe (x + 2 * h) (y + 2 * h) x (y + 2 * h) + (fe x (y + 2 * h) x (y + h) + fe x (y + h) x y))%Z.
Proof.
  intros ->. cbn [snd tot val triasCl]. unfold fe. pts x y h.
  rewrite (anti (x * ny + (y + h)) ((x + 2 * h) * ny + y)), (anti (x * ny + (y + h)) ((x + 2 * h) * ny + (y + 2 * h))). ring.
Qed.
Lemma tot_Ct o x y h : o = x * ny + y -> tot F (snd (triasCt o (h * ny) h)) =
  (fe x y (x + 2 * h) y + fe (x + 2 * h) y (x + 2 * h) (y + 2 * h) + (fe (x + 2 * h) (y + 2 * h) (x + h) (y + 2 * h) + fe (x + h) (y + 2 * h) x (y + 2 * h)) + fe x (y + 2 * h) x y)%Z.
Proof.
  intros ->. cbn [snd tot val triasCt]. unfold fe. pts x y h.
  rewrite (anti (x * ny + y) ((x + h) * ny + (y + 2 * h))), (anti ((x + h) * ny + (y + 2 * h)) ((x + 2 * h) * ny + y)). ring.
Qed.
Lemma tot_Cb o x y h : o = x * ny + y -> tot F (snd (triasCb o (h * ny) h)) =
  ((fe x y (x + h) y + fe (x + h) y (x + 2 * h) y) + fe (x + 2 * h) y (x + 2 * h) (y + 2 * h) + fe (x + 2 * h) (y + 2 * h) x (y + 2 * h) + fe x (y + 2 * h) x y)%Z.
Proof.
  intros ->. cbn [snd tot val triasCb]. unfold fe. pts x y h.
  rewrite (anti (x * ny + (y + 2 * h)) ((x + h) * ny + y)), (anti ((x + 2 * h) * ny + (y + 2 * h)) ((x + h) * ny + y)). ring.
Qed.

(** outline of the rectangle of [m] times [k] cells of size [s] at (b,b), counter-clockwise *)
Definition hor (b s y m : nat) : Z := rs (fun i => fe (b + i * s) y (b + S i * s) y) m.
Definition ver (b s x k : nat) : Z := rs (fun j => fe x (b + j * s) x (b + S j * s)) k.
Definition outl (b s m k : nat) : Z := (hor b s b m + ver b s (b + m * s) k - hor b s (b + k * s) m - ver b s b k)%Z.

Lemma hor_double b h y m : hor b h y (2 * m) = rs (fun i => fe (b + i * (2 * h)) y (b + i * (2 * h) + h) y + fe (b + i * (2 * h) + h) y (b + i * (2 * h) + 2 * h) y)%Z m.
Proof.
  unfold hor. rewrite rs_double. apply rs_ext. intros i _.
  replace (b + 2 * i * h) with (b + i * (2 * h)) by ring. replace (b + S (2 * i) * h) with (b + i * (2 * h) + h) by ring.
  replace (b + (2 * i + 1) * h) with (b + i * (2 * h) + h) by ring. replace (b + S (2 * i + 1) * h) with (b + i * (2 * h) + 2 * h) by ring. reflexivity.
Qed.
Lemma ver_double b h x m : ver b h x (2 * m) = rs (fun i => fe x (b + i * (2 * h)) x (b + i * (2 * h) + h) + fe x (b + i * (2 * h) + h) x (b + i * (2 * h) + 2 * h))%Z m.
Proof.
  unfold ver. rewrite rs_double. apply rs_ext. intros i _.
  replace (b + 2 * i * h) with (b + i * (2 * h)) by ring. replace (b + S (2 * i) * h) with (b + i * (2 * h) + h) by ring.
  replace (b + (2 * i + 1) * h) with (b + i * (2 * h) + h) by ring. replace (b + S (2 * i + 1) * h) with (b + i * (2 * h) + 2 * h) by ring. reflexivity.
Qed.
Lemma hor_ends b s y m : hor b s y (S (S m)) = (fe b y (b + s) y + hor (b + s) s y m + fe (b + s + m * s) y (b + s + m * s + s) y)%Z.
Proof.
  unfold hor. rewrite rs_S. cbn [rs]. replace (b + 0 * s) with b by ring. replace (b + 1 * s) with (b + s) by ring.
  replace (b + S m * s) with (b + s + m * s) by ring. replace (b + S (S m) * s) with (b + s + m * s + s) by ring.
  rewrite (rs_ext _ (fun i => fe (b + s + i * s) y (b + s + S i * s) y)); [ring|]. intros i _. f_equal; ring.
Qed.
Lemma ver_ends b s x m : ver b s x (S (S m)) = (fe x b x (b + s) + ver (b + s) s x m + fe x (b + s + m * s) x (b + s + m * s + s))%Z.
Proof.
  unfold ver. rewrite rs_S. cbn [rs]. replace (b + 0 * s) with b by ring. replace (b + 1 * s) with (b + s) by ring.
  replace (b + S m * s) with (b + s + m * s) by ring. replace (b + S (S m) * s) with (b + s + m * s + s) by ring.
  rewrite (rs_ext _ (fun i => fe x (b + s + i * s) x (b + s + S i * s))); [ring|]. intros i _. f_equal; ring.
Qed.

(** strips *)
Lemma strip_Ct b c h m : rs (fun i => tot F (snd (triasCt (b + (c + i * (2 * h)) * ny) (h * ny) h))) m =
  (hor c (2 * h) b m - hor c h (b + 2 * h) (2 * m) + fe (c + m * (2 * h)) b (c + m * (2 * h)) (b + 2 * h) - fe c b c (b + 2 * h))%Z.
Proof.
  rewrite hor_double. unfold hor.
  pose proof (rs_tel (fun i => fe (c + i * (2 * h)) b (c + i * (2 * h)) (b + 2 * h)) m) as T. cbn beta in T.
  replace (c + 0 * (2 * h)) with c in T by ring.
  rewrite <- Z.add_sub_assoc, <- T. unfold Z.sub at 1. rewrite <- rs_opp, <- !rs_add. apply rs_ext. intros i _.
  rewrite (tot_Ct _ (c + i * (2 * h)) b h) by ring.
  replace (c + S i * (2 * h)) with (c + i * (2 * h) + 2 * h) by ring.
  rewrite (fe_anti (c + i * (2 * h) + 2 * h) (b + 2 * h)), (fe_anti (c + i * (2 * h) + h) (b + 2 * h) (c + i * (2 * h))), (fe_anti (c + i * (2 * h)) (b + 2 * h) _ b). ring.
Qed.
Lemma strip_Cb t c h m : rs (fun i => tot F (snd (triasCb (t + (c + i * (2 * h)) * ny) (h * ny) h))) m =
  (hor c h t (2 * m) - hor c (2 * h) (t + 2 * h) m + fe (c + m * (2 * h)) t (c + m * (2 * h)) (t + 2 * h) - fe c t c (t + 2 * h))%Z.
Proof.
  rewrite hor_double. unfold hor.
  pose proof (rs_tel (fun i => fe (c + i * (2 * h)) t (c + i * (2 * h)) (t + 2 * h)) m) as T. cbn beta in T.
  replace (c + 0 * (2 * h)) with c in T by ring.
  rewrite <- Z.add_sub_assoc, <- T. unfold Z.sub at 1. rewrite <- rs_opp, <- !rs_add. apply rs_ext. intros i _.
  rewrite (tot_Cb _ (c + i * (2 * h)) t h) by ring.
  replace (c + S i * (2 * h)) with (c + i * (2 * h) + 2 * h) by ring.
  rewrite (fe_anti (c + i * (2 * h) + 2 * h) (t + 2 * h)), (fe_anti (c + i * (2 * h)) (t + 2 * h) _ t). ring.
Qed.
Lemma strip_Cr b c h m : rs (fun i => tot F (snd (triasCr (b * ny + (c + i * (2 * h))) (h * ny) h))) m =
  (ver c h (b + 2 * h) (2 * m) - ver c (2 * h) b m + fe b c (b + 2 * h) c - fe b (c + m * (2 * h)) (b + 2 * h) (c + m * (2 * h)))%Z.
Proof.
  rewrite ver_double. unfold ver.
  pose proof (rs_tel (fun i => - fe b (c + i * (2 * h)) (b + 2 * h) (c + i * (2 * h)))%Z m) as T. cbn beta in T.
  replace (c + 0 * (2 * h)) with c in T by ring.
  match goal with |- _ = (?A - ?B + ?C - ?D)%Z => replace (A - B + C - D)%Z with (A + - B + (- D - - C))%Z by ring end.
  rewrite <- T. rewrite <- rs_opp, <- !rs_add. apply rs_ext. intros i _.
  rewrite (tot_Cr _ b (c + i * (2 * h)) h) by ring.
  replace (c + S i * (2 * h)) with (c + i * (2 * h) + 2 * h) by ring.
  rewrite (fe_anti (b + 2 * h) (c + i * (2 * h) + 2 * h) b), (fe_anti b (c + i * (2 * h) + 2 * h) b). ring.
Qed.
Lemma strip_Cl r c h m : rs (fun i => tot F (snd (triasCl (r * ny + (c + i * (2 * h))) (h * ny) h))) m =
  (ver c (2 * h) (r + 2 * h) m - ver c h r (2 * m) + fe r c (r + 2 * h) c - fe r (c + m * (2 * h)) (r + 2 * h) (c + m * (2 * h)))%Z.
Proof.
  rewrite ver_double. unfold ver.
  pose proof (rs_tel (fun i => - fe r (c + i * (2 * h)) (r + 2 * h) (c + i * (2 * h)))%Z m) as T. cbn beta in T.
  replace (c + 0 * (2 * h)) with c in T by ring.
  match goal with |- _ = (?A - ?B + ?C - ?D)%Z => replace (A - B + C - D)%Z with (A + - B + (- D - - C))%Z by ring end.
  rewrite <- T. rewrite <- rs_opp, <- !rs_add. apply rs_ext. intros i _.
  rewrite (tot_Cl _ r (c + i * (2 * h)) h) by ring.
  replace (c + S i * (2 * h)) with (c + i * (2 * h) + 2 * h) by ring.
  rewrite (fe_anti (r + 2 * h) (c + i * (2 * h) + 2 * h) r), (fe_anti r (c + i * (2 * h) + 2 * h) r), (fe_anti r (c + i * (2 * h) + h) r (c + i * (2 * h))). ring.
Qed.

(** ** One level *)
Ltac good_ := intros -> ?H1 ?H2 ?H3; repeat apply Forall_cons; try apply Forall_nil.
Lemma good_BlTr nx o x y s : o = x * ny + y -> 0 < s -> x + s < nx -> y + s < ny -> Forall (good nx ny) (snd (triasBlTr o (s * ny) s)).
Proof.
  good_.
  - goodOne x y (x + s) y (x + s) (y + s) x (x + s) y (y + s).
  - goodOne x y (x + s) (y + s) x (y + s) x (x + s) y (y + s).
Qed.
Lemma good_BrTl nx o x y s : o = x * ny + y -> 0 < s -> x + s < nx -> y + s < ny -> Forall (good nx ny) (snd (triasBrTl o (s * ny) s)).
Proof.
  good_.
  - goodOne x y (x + s) y x (y + s) x (x + s) y (y + s).
  - goodOne (x + s) y (x + s) (y + s) x (y + s) x (x + s) y (y + s).
Qed.
Lemma good_Cr nx o x y h : o = x * ny + y -> 0 < h -> x + 2 * h < nx -> y + 2 * h < ny -> Forall (good nx ny) (snd (triasCr o (h * ny) h)).
Proof.
  good_.
  - goodOne x y (x + 2 * h) y (x + 2 * h) (y + h) x (x + 2 * h) y (y + h).
  - goodOne x y (x + 2 * h) (y + h) x (y + 2 * h) x (x + 2 * h) y (y + 2 * h).
  - goodOne (x + 2 * h) (y + h) (x + 2 * h) (y + 2 * h) x (y + 2 * h) x (x + 2 * h) (y + h) (y + 2 * h).
Qed.
Lemma good_Cl nx o x y h : o = x * ny + y -> 0 < h -> x + 2 * h < nx -> y + 2 * h < ny -> Forall (good nx ny) (snd (triasCl o (h * ny) h)).
Proof.
  good_.
  - goodOne x y (x + 2 * h) y x (y + h) x (x + 2 * h) y (y + h).
  - goodOne (x + 2 * h) y (x + 2 * h) (y + 2 * h) x (y + h) x (x + 2 * h) y (y + 2 * h).
  - goodOne x (y + h) (x + 2 * h) (y + 2 * h) x (y + 2 * h) x (x + 2 * h) (y + h) (y + 2 * h).
Qed.
Lemma good_Ct nx o x y h : o = x * ny + y -> 0 < h -> x + 2 * h < nx -> y + 2 * h < ny -> Forall (good nx ny) (snd (triasCt o (h * ny) h)).
Proof.
  good_.
  - goodOne x y (x + h) (y + 2 * h) x (y + 2 * h) x (x + h) y (y + 2 * h).
  - goodOne x y (x + 2 * h) y (x + h) (y + 2 * h) x (x + 2 * h) y (y + 2 * h).
  - goodOne (x + 2 * h) y (x + 2 * h) (y + 2 * h) (x + h) (y + 2 * h) (x + h) (x + 2 * h) y (y + 2 * h).
Qed.
Lemma good_Cb nx o x y h : o = x * ny + y -> 0 < h -> x + 2 * h < nx -> y + 2 * h < ny -> Forall (good nx ny) (snd (triasCb o (h * ny) h)).
Proof.
  good_.
  - goodOne x y (x + h) y x (y + 2 * h) x (x + h) y (y + 2 * h).
  - goodOne (x + h) y (x + 2 * h) (y + 2 * h) x (y + 2 * h) x (x + 2 * h) y (y + 2 * h).
  - goodOne (x + h) y (x + 2 * h) y (x + 2 * h) (y + 2 * h) (x + h) (x + 2 * h) y (y + 2 * h).
Qed.
Lemma good_for nx f n : (forall k, k < n -> Forall (good nx ny) (snd (f k))) -> Forall (good nx ny) (snd (ofor f (seq 0 n))).
Proof.
  intros H. apply Forall_forall. intros t T. apply in_ofor in T. destruct T as (k & K & T). apply in_seq in K.
  specialize (H k ltac:(lia)). rewrite Forall_forall in H. auto.
Qed.

Lemma ring_ok nx b h m k : 0 < h -> nx = 2 * b + (m + 2) * (2 * h) + 1 -> ny = 2 * b + (k + 2) * (2 * h) + 1 ->
  exists o, ring nx ny b (2 * h) = Ok o /\ cnt o /\ Forall (good nx ny) (snd o) /\
    tot F (snd o) = (outl b (2 * h) (S (S m)) (S (S k)) - outl (b + 2 * h) h (2 * m) (2 * k))%Z.
Proof.
  intros Hh Ex Ey. unfold ring. rewrite !usubs_ok by (cbn; lia). cbn [bind list_sum fold_right].
  replace (nx - (1 + (b + (2 * h + 0)))) with (b + 2 * h + m * (2 * h)) by lia.
  replace (ny - (1 + (b + (2 * h + 0)))) with (b + 2 * h + k * (2 * h)) by lia.
  replace (nx - (b + (2 * h + (1 + 0)))) with (b + 2 * h + m * (2 * h)) by lia.
  replace (ny - (b + (2 * h + (1 + 0)))) with (b + 2 * h + k * (2 * h)) by lia.
  replace (2 * h / 2) with h by (rewrite Nat.mul_comm, Nat.div_mul; lia).
  assert (S1 : steps ((b + 2 * h) * ny) ((b + 2 * h + m * (2 * h)) * ny) (2 * h * ny) = map (fun i => (b + 2 * h) * ny + i * (2 * h * ny)) (seq 0 m)).
  { replace ((b + 2 * h + m * (2 * h)) * ny) with ((b + 2 * h) * ny + m * (2 * h * ny)) by ring. apply steps_eq. nia. }
  rewrite S1. rewrite !steps_eq by nia. rewrite !ofor_map.
  eexists. split; [reflexivity|]. split; [|split].
  - repeat apply cnt_app; try apply cnt_for; intros; reflexivity.
  - unfold oapp. cbn [snd]. repeat rewrite Forall_app. repeat split.
    + apply good_BlTr with (x := b) (y := b); nia.
    + apply good_BrTl with (x := b + 2 * h + m * (2 * h)) (y := b); nia.
    + apply good_BrTl with (x := b) (y := b + 2 * h + k * (2 * h)); nia.
    + apply good_BlTr with (x := b + 2 * h + m * (2 * h)) (y := b + 2 * h + k * (2 * h)); nia.
    + apply good_for. intros i Hi. apply good_Cr with (x := b) (y := b + 2 * h + i * (2 * h)); nia.
    + apply good_for. intros i Hi. apply good_Cl with (x := b + 2 * h + m * (2 * h)) (y := b + 2 * h + i * (2 * h)); nia.
    + apply good_for. intros i Hi. apply good_Ct with (x := b + 2 * h + i * (2 * h)) (y := b); nia.
    + apply good_for. intros i Hi. apply good_Cb with (x := b + 2 * h + i * (2 * h)) (y := b + 2 * h + k * (2 * h)); nia.
  - unfold oapp. cbn [snd]. rewrite !tot_app, !tot_ofor.
    rewrite (tot_BlTr _ b b), (tot_BrTl _ (b + 2 * h + m * (2 * h)) b), (tot_BrTl _ b (b + 2 * h + k * (2 * h))), (tot_BlTr _ (b + 2 * h + m * (2 * h)) (b + 2 * h + k * (2 * h))) by ring.
    rewrite (rs_ext (fun i => tot F (snd (triasCt _ _ _))) (fun i => tot F (snd (triasCt (b + (b + 2 * h + i * (2 * h)) * ny) (h * ny) h)))) by (intros; do 3 f_equal; ring).
    rewrite (rs_ext (fun i => tot F (snd (triasCb _ _ _))) (fun i => tot F (snd (triasCb (b + 2 * h + k * (2 * h) + (b + 2 * h + i * (2 * h)) * ny) (h * ny) h)))) by (intros; do 3 f_equal; ring).
    rewrite strip_Cr, strip_Cl, strip_Ct, strip_Cb. unfold outl. rewrite !hor_ends, !ver_ends.
    replace (b + S (S m) * (2 * h)) with (b + 2 * h + m * (2 * h) + 2 * h) by ring. replace (b + S (S k) * (2 * h)) with (b + 2 * h + k * (2 * h) + 2 * h) by ring.
    replace (b + 2 * h + 2 * m * h) with (b + 2 * h + m * (2 * h)) by ring. replace (b + 2 * h + 2 * k * h) with (b + 2 * h + k * (2 * h)) by ring.
    remember (b + 2 * h) as c. remember (c + m * (2 * h)) as r. remember (c + k * (2 * h)) as t.
    rewrite (fe_anti c c b c), (fe_anti b c b b), (fe_anti (r + 2 * h) c r c), (fe_anti r c r b).
    rewrite (fe_anti c (t + 2 * h) b (t + 2 * h)), (fe_anti b (t + 2 * h) b t), (fe_anti (r + 2 * h) (t + 2 * h) r (t + 2 * h)), (fe_anti r (t + 2 * h) r t). ring.
Qed.

(** ** Cells of the interior *)
Lemma cells_tot b m k : rs (fun i => rs (fun j => tot F (snd (triasBlTr ((b + i * 1) * ny + (b + j * 1)) ny 1))) k) m = outl b 1 m k.
Proof.
  unfold outl. unfold hor, ver.
  pose proof (rs_tel (fun i => rs (fun j => fe (b + i * 1) (b + j * 1) (b + i * 1) (b + S j * 1)) k) m) as T. cbn beta in T. replace (b + 0 * 1) with b in T by lia.
  match goal with |- _ = (?A + ?B - ?C - ?D)%Z => replace (A + B - C - D)%Z with (A + - C + (B - D))%Z by ring end.
  rewrite <- T, <- rs_opp, <- !rs_add. apply rs_ext. intros i _.
  pose proof (rs_tel (fun j => - fe (b + i * 1) (b + j * 1) (b + S i * 1) (b + j * 1))%Z k) as U. cbn beta in U. replace (b + 0 * 1) with b in U by lia.
  match goal with |- _ = (?A + - ?B + (?C - ?D))%Z => replace (A + - B + (C - D))%Z with ((- B - - A) + (C + - D))%Z by ring end.
  rewrite <- U, <- rs_opp, <- !rs_add. apply rs_ext. intros j _.
  replace ny with (1 * ny) at 2 by lia. rewrite (tot_BlTr _ (b + i * 1) (b + j * 1) 1) by ring.
  replace (b + S i * 1) with (b + i * 1 + 1) by ring. replace (b + S j * 1) with (b + j * 1 + 1) by ring.
  rewrite (fe_anti (b + i * 1 + 1) (b + j * 1 + 1) (b + i * 1)), (fe_anti (b + i * 1) (b + j * 1 + 1) (b + i * 1)). ring.
Qed.

Definition inner (nx b : nat) : res outp :=
  xe <- usubs nx [1; b] ;; ye <- usubs ny [1; b] ;; Ok (ofor (fun vx => ofor (fun vy => triasBlTr (vx * ny + vy) ny 1) (steps b ye 1)) (steps b xe 1)).
Lemma inner_ok nx b m k : nx = 2 * b + m + 1 -> ny = 2 * b + k + 1 ->
  exists o, inner nx b = Ok o /\ cnt o /\ Forall (good nx ny) (snd o) /\ tot F (snd o) = outl b 1 m k.
Proof.
  intros Ex Ey. unfold inner. rewrite !usubs_ok by (cbn; lia). cbn [bind list_sum fold_right].
  replace (nx - (1 + (b + 0))) with (b + m * 1) by lia. replace (ny - (1 + (b + 0))) with (b + k * 1) by lia.
  rewrite !steps_eq by lia. rewrite ofor_map. eexists. split; [reflexivity|]. split; [|split].
  - apply cnt_for. intros i. apply cnt_for. intros. reflexivity.
  - apply good_for. intros i Hi. rewrite ofor_map. apply good_for. intros j Hj. pose proof (good_BlTr nx _ (b + i * 1) (b + j * 1) 1 eq_refl) as G.
    rewrite Nat.mul_1_l in G. apply G; lia.
  - rewrite tot_ofor. rewrite <- cells_tot. apply rs_ext. intros i _. rewrite ofor_map, tot_ofor. reflexivity.
Qed.

Lemma rings_ok nx lv : forall b m k, nx = 2 * b + m * 2 ^ lv + 1 -> ny = 2 * b + k * 2 ^ lv + 1 -> 4 * (2 ^ lv - 1) <= m * 2 ^ lv -> 4 * (2 ^ lv - 1) <= k * 2 ^ lv ->
  exists o b' o', rings lv nx ny b (2 ^ lv) = Ok (o, b') /\ inner nx b' = Ok o' /\ cnt (o +++ o') /\ Forall (good nx ny) (snd (o +++ o')) /\ tot F (snd (o +++ o')) = outl b (2 ^ lv) m k.
Proof.
  induction lv as [|lv IH]; intros b m k Ex Ey Hm Hk.
  - cbn [Nat.pow] in *. destruct (inner_ok nx b m k ltac:(lia) ltac:(lia)) as (o & O & C & G & T).
    exists (0, []), b, o. split; [reflexivity|]. split; [exact O|]. destruct o as [n l]. cbn in *. auto.
  - assert (P : 0 < 2 ^ lv) by (apply Nat.neq_0_lt_0, Nat.pow_nonzero; lia). cbn [Nat.pow] in Ex, Ey, Hm, Hk.
    replace (2 ^ S lv) with (2 * 2 ^ lv) by reflexivity. set (h := 2 ^ lv) in *.
    assert (exists m', m = m' + 2) as [m' ->] by (exists (m - 2); nia). assert (exists k', k = k' + 2) as [k' ->] by (exists (k - 2); nia).
    destruct (ring_ok nx b h m' k' P ltac:(lia) ltac:(lia)) as (o & O & C & G & T).
    destruct (IH (b + 2 * h) (2 * m') (2 * k') ltac:(lia) ltac:(lia) ltac:(lia) ltac:(lia)) as (o1 & b' & o2 & O1 & O2 & C1 & G1 & T1).
    exists (o +++ o1), b', o2. cbn [rings]. rewrite O. cbn [bind].
    replace (2 * h / 2) with h by (rewrite Nat.mul_comm, Nat.div_mul; lia). rewrite O1. cbn [bind]. split; [reflexivity|]. split; [exact O2|].
    unfold cnt, oapp in *. cbn [fst snd] in *. rewrite <- !app_assoc. rewrite !app_length in *. split; [lia|]. split; [apply Forall_app; auto|].
    rewrite tot_app, T, T1. replace (m' + 2) with (S (S m')) by lia. replace (k' + 2) with (S (S k')) by lia. ring.
Qed.

Lemma triaOff_ok nx lv m k : nx = m * 2 ^ lv + 1 -> ny = k * 2 ^ lv + 1 -> 4 * (2 ^ lv - 1) <= m * 2 ^ lv -> 4 * (2 ^ lv - 1) <= k * 2 ^ lv ->
  exists o, triaOff nx ny lv = Ok o /\ cnt o /\ Forall (good nx ny) (snd o) /\ tot F (snd o) = outl 0 (2 ^ lv) m k.
Proof.
  intros Ex Ey Hm Hk. destruct (rings_ok nx lv 0 m k) as (o & b & o' & O & I & C & G & T); auto.
  exists (o +++ o'). unfold triaOff. rewrite O. cbn [bind]. unfold inner in I.
  destruct (usubs nx [1; b]) as [xe|] eqn:E1; [|discriminate]. cbn [bind] in *. destruct (usubs ny [1; b]) as [ye|] eqn:E2; [|discriminate]. cbn [bind] in *.
  injection I as <-. auto.
Qed.
End Grid.
