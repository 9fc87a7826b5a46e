(** Lemmas on the kernels of the ADER-DG solver: arrays as functions of simulation, quantity and mode. *)
From Coq Require Import Ring.
From Verif Require Import Util MeshConn MatMul Props_Mat Ader AderSpec.

Section V.
Context {T : Type}.
Variables (A : alg T) (cf : conf).
Local Notation zero := (aZero A).
Local Notation one := (aOne A).
Local Notation add := (aAdd A).
Local Notation sub := (aSub A).
Local Notation mul := (aMul A).
Local Notation div := (aDiv A).
Local Notation opp := (aOpp A).
Local Notation ofN := (aOfN A).
Local Notation isz := (aIsz A).
Definition aRing := aRT A.
Add Ring TR : aRing.
Local Notation nCr := (cCrs cf).
Local Notation nMd := (nModes (cEl cf) (cSp cf)).

Local Notation sum := (sum A).
Local Notation rep := (rep A cf).
Local Notation ent := (ent A).

Lemma sum_ext n f g : (forall i, i < n -> f i = g i) -> sum n f = sum n g.
Proof. induction n as [|n IH]; intros H; cbn; [reflexivity|]. rewrite IH, H by auto. reflexivity. Qed.
Lemma sum_0 n f : (forall i, i < n -> f i = zero) -> sum n f = zero.
Proof. induction n as [|n IH]; intros H; cbn; [reflexivity|]. rewrite IH, H by auto. ring. Qed.
Lemma sum_add n f g : sum n (fun i => add (f i) (g i)) = add (sum n f) (sum n g).
Proof. induction n as [|n IH]; cbn; [ring|]. rewrite IH. ring. Qed.
Lemma sum_mul n c f : sum n (fun i => mul c (f i)) = mul c (sum n f).
Proof. induction n as [|n IH]; cbn; [ring|]. rewrite IH. ring. Qed.
Lemma sum_le n m f : n <= m -> (forall i, n <= i < m -> f i = zero) -> sum m f = sum n f.
Proof. induction 1 as [|m H IH]; intros Z; cbn; [reflexivity|]. rewrite IH, Z by (intros; try apply Z; lia). ring. Qed.
Lemma sum_swap n m f : sum n (fun i => sum m (fun j => f i j)) = sum m (fun j => sum n (fun i => f i j)).
Proof.
  induction n as [|n IH]; cbn; [symmetry; apply sum_0; reflexivity|]. rewrite IH. now rewrite <- sum_add.
Qed.

Lemma sumOf_sum K a b v : sumOf add mul K one a b v = add v (sum K (fun l => mul (a l) (b l))).
Proof.
  unfold sumOf. induction K as [|K IH]; [cbn; ring|]. rewrite seq_snoc, fold_left_app. rewrite IH. cbn. ring.
Qed.

Lemma posInj r n ld x y z x' y' z' : n <= ld -> y < n -> z < r -> y' < n -> z' < r -> pos r ld x y z = pos r ld x' y' z' -> x = x' /\ y = y' /\ z = z'.
Proof. apply (pos_inj Nat.add Nat.mul (fun _ => true) 0). Qed.

Lemma rep_any nq n l : length l = nq * n * nCr -> rep nq n l (fun z x y => nth (pos nCr n x y z) l zero).
Proof. intros L. split; auto. Qed.

Lemma rep_ext nq n l f g : rep nq n l f -> (forall z x y, z < nCr -> x < nq -> y < n -> f z x y = g z x y) -> rep nq n l g.
Proof. intros (L & V) H. split; [auto|]. intros. rewrite V by auto. apply H; auto. Qed.

Lemma pos_lt r m n x y z : x < m -> y < n -> z < r -> pos r n x y z < m * n * r.
Proof. unfold pos. intros Hx Hy Hz. assert (P : x * n + y < m * n) by nia. nia. Qed.

Lemma covers_ge r m n ld mm (l : list T) : length l = mm * ld * r -> m <= mm -> n <= ld -> covers r m n ld l.
Proof. intros L Hm Hn x y z Hx Hy Hz. rewrite L. apply pos_lt; lia. Qed.

Definition sc (beta v : T) : T := if isz beta then zero else mul v beta.

Lemma run_ac m n k mc ldA ldB ldC ma kb beta a b c fa fc : m <= ma -> k <= ldA -> k <= kb -> n <= ldB -> n <= ldC -> m <= mc ->
  rep ma ldA a fa -> length b = kb * ldB -> rep mc ldC c fc ->
  exists c', run_ zero add mul isz (kAC one cf m n k ldA ldB ldC beta) a b c = Ok c' /\
    rep mc ldC c' (fun z x y => if (x <? m) && (y <? n) then add (sc beta (fc z x y)) (sum k (fun l => mul (fa z x l) (ent ldB b l y))) else fc z x y).
Proof.
  intros H1 H2 H3 H4 H5 H6 (La & Va) Lb (Lc & Vc). unfold run_, vanillaRun, kAC. cbn [vAC vCrs vM vN vK vLdA vLdB vLdC vAlpha vBeta].
  destruct (C37_fused_AC add mul zero isz zero nCr m n k ldA ldB ldC one beta a b c H5) as (c' & E & L & V & U).
  - apply (covers_ge _ _ _ _ mc); auto.
  - apply (covers_ge _ _ _ _ ma); auto.
  - apply (covers_ge _ _ _ _ kb); auto. lia.
  - exists c'. split; [exact E|]. split; [lia|]. intros z x y Hz Hx Hy.
    destruct (Nat.ltb_spec x m) as [Xm|Xm]; [destruct (Nat.ltb_spec y n) as [Yn|Yn]|]; cbn [andb].
    + rewrite V by auto. rewrite sumOf_sum. unfold scaled, sc. rewrite Vc by auto. f_equal. apply sum_ext. intros l Hl. rewrite Va by lia.
      unfold ent. do 2 f_equal. unfold pos. lia.
    + rewrite U; [apply Vc; auto|]. intros x' y' z' Hx' Hy' Hz' E'. destruct (posInj nCr ldC ldC x y z x' y' z') as (-> & -> & ->); auto; lia.
    + rewrite U; [apply Vc; auto|]. intros x' y' z' Hx' Hy' Hz' E'. destruct (posInj nCr ldC ldC x y z x' y' z') as (-> & -> & ->); auto; lia.
Qed.

Lemma run_bc m n k mc ldA ldB ldC ma kb beta a b c fb fc : m <= ma -> k <= ldA -> k <= kb -> n <= ldB -> n <= ldC -> m <= mc ->
  length a = ma * ldA -> rep kb ldB b fb -> rep mc ldC c fc ->
  exists c', run_ zero add mul isz (kBC one cf m n k ldA ldB ldC beta) a b c = Ok c' /\
    rep mc ldC c' (fun z x y => if (x <? m) && (y <? n) then add (sc beta (fc z x y)) (sum k (fun l => mul (ent ldA a x l) (fb z l y))) else fc z x y).
Proof.
  intros H1 H2 H3 H4 H5 H6 La (Lb & Vb) (Lc & Vc). unfold run_, vanillaRun, kBC. cbn [vAC vBC vCrs vM vN vK vLdA vLdB vLdC vAlpha vBeta].
  destruct (C37_fused_BC add mul zero isz zero nCr m n k ldA ldB ldC one beta a b c H5) as (c' & E & L & V & U).
  - apply (covers_ge _ _ _ _ mc); auto.
  - apply (covers_ge _ _ _ _ ma); auto. lia.
  - apply (covers_ge _ _ _ _ kb); auto.
  - exists c'. split; [exact E|]. split; [lia|]. intros z x y Hz Hx Hy.
    destruct (Nat.ltb_spec x m) as [Xm|Xm]; [destruct (Nat.ltb_spec y n) as [Yn|Yn]|]; cbn [andb].
    + rewrite V by auto. rewrite sumOf_sum. unfold scaled, sc. rewrite Vc by auto. f_equal. apply sum_ext. intros l Hl. rewrite Vb by lia.
      unfold ent. do 2 f_equal. unfold pos. lia.
    + rewrite U; [apply Vc; auto|]. intros x' y' z' Hx' Hy' Hz' E'. destruct (posInj nCr ldC ldC x y z x' y' z') as (-> & -> & ->); auto; lia.
    + rewrite U; [apply Vc; auto|]. intros x' y' z' Hx' Hy' Hz' E'. destruct (posInj nCr ldC ldC x y z x' y' z') as (-> & -> & ->); auto; lia.
Qed.

(** loop nests *)
Lemma loop3_ok nq mq n (B : nat -> list T -> res (list T)) (f : nat -> T -> T) o fo : nq <= mq -> n <= nMd -> rep mq nMd o fo ->
  (forall p c, p < mq * nMd * nCr -> length c = mq * nMd * nCr -> B p c = Ok (upd c p (f p (nth p c zero)))) ->
  exists o', loop3 cf nq n B o = Ok o' /\
    rep mq nMd o' (fun z x y => if (x <? nq) && (y <? n) then f (pos nCr nMd x y z) (fo z x y) else fo z x y).
Proof.
  intros Hq Hn (L & V) HB. unfold loop3.
  destruct (nest3 zero (pos nCr nMd) (fun x y z v => f (pos nCr nMd x y z) v) (fun x y z c => B (pos nCr nMd x y z) c) nq n nCr (mq * nMd * nCr) o) as (o' & E & L' & V' & U').
  - intros x y z x' y' z' _ Hy Hz _ Hy' Hz'. apply (posInj nCr n); auto.
  - intros x y z Hx Hy Hz. apply pos_lt; lia.
  - intros x y z c Hx Hy Hz Lc. apply HB; auto. apply pos_lt; lia.
  - auto.
  - exists o'. split; [exact E|]. split; [auto|]. intros z x y Hz Hx Hy.
    destruct (Nat.ltb_spec x nq) as [Xm|Xm]; [destruct (Nat.ltb_spec y n) as [Yn|Yn]|]; cbn [andb].
    + rewrite V' by auto. rewrite V by auto. reflexivity.
    + rewrite U'; [apply V; auto|]. intros x' y' z' Hx' Hy' Hz' E'. destruct (posInj nCr nMd nMd x y z x' y' z') as (-> & -> & ->); auto; lia.
    + rewrite U'; [apply V; auto|]. intros x' y' z' Hx' Hy' Hz' E'. destruct (posInj nCr nMd nMd x y z x' y' z') as (-> & -> & ->); auto; lia.
Qed.

Lemma rep_nth nq l f z x y : rep nq nMd l f -> z < nCr -> x < nq -> y < nMd -> nth (pos nCr nMd x y z) l zero = f z x y.
Proof. intros (L & V) Hz Hx Hy. apply V; auto. Qed.

Lemma zeroE_ok nq o : length o = nq * nMd * nCr -> exists o', zeroE zero cf nq o = Ok o' /\ rep nq nMd o' (fun _ _ _ => zero).
Proof.
  intros L. destruct (loop3_ok nq nq nMd (fun p o => wr o p zero) (fun _ _ => zero) o _ ltac:(lia) ltac:(lia) (rep_any _ _ _ L)) as (o' & E & H).
  { intros p c Hp Lc. rewrite wr_ok by lia. reflexivity. }
  exists o'. split; [exact E|]. eapply rep_ext; [exact H|]. intros z x y Hz Hx Hy. cbv beta. apply Nat.ltb_lt in Hx, Hy. now rewrite Hx, Hy.
Qed.

Lemma copyE_ok nq i o f : length o = nq * nMd * nCr -> rep nq nMd i f -> exists o', copyE cf nq i o = Ok o' /\ rep nq nMd o' f.
Proof.
  intros L I. destruct (loop3_ok nq nq nMd (fun p o => x <- rd i p;; wr o p x) (fun p _ => nth p i zero) o _ ltac:(lia) ltac:(lia) (rep_any _ _ _ L)) as (o' & E & H).
  { intros p c Hp Lc. rewrite (rd_ok _ _ zero) by (destruct I; lia). cbn [bind]. rewrite wr_ok by lia. reflexivity. }
  exists o'. split; [exact E|]. eapply rep_ext; [exact H|]. intros z x y Hz Hx Hy. cbv beta.
  rewrite (proj2 (Nat.ltb_lt _ _) Hx), (proj2 (Nat.ltb_lt _ _) Hy). cbn [andb]. apply I; auto.
Qed.

Lemma scaleE_ok nq s i o f : length o = nq * nMd * nCr -> rep nq nMd i f -> exists o', scaleE mul cf nq s i o = Ok o' /\ rep nq nMd o' (fun z x y => mul s (f z x y)).
Proof.
  intros L I. destruct (loop3_ok nq nq nMd (fun p o => x <- rd i p;; wr o p (mul s x)) (fun p _ => mul s (nth p i zero)) o _ ltac:(lia) ltac:(lia) (rep_any _ _ _ L)) as (o' & E & H).
  { intros p c Hp Lc. rewrite (rd_ok _ _ zero) by (destruct I; lia). cbn [bind]. rewrite wr_ok by lia. reflexivity. }
  exists o'. split; [exact E|]. eapply rep_ext; [exact H|]. intros z x y Hz Hx Hy. cbv beta.
  rewrite (proj2 (Nat.ltb_lt _ _) Hx), (proj2 (Nat.ltb_lt _ _) Hy). cbn [andb]. f_equal. apply I; auto.
Qed.

Lemma axpyE_ok nq n s i o f g : n <= nMd -> rep nq nMd o g -> rep nq nMd i f ->
  exists o', axpyE add mul cf nq n s i o = Ok o' /\ rep nq nMd o' (fun z x y => if y <? n then add (g z x y) (mul s (f z x y)) else g z x y).
Proof.
  intros Hn O I. destruct (loop3_ok nq nq n (fun p o => y <- rd o p;; x <- rd i p;; wr o p (add y (mul s x))) (fun p v => add v (mul s (nth p i zero))) o g ltac:(lia) Hn O) as (o' & E & H).
  { intros p c Hp Lc. rewrite (rd_ok _ _ zero) by lia. cbn [bind]. rewrite (rd_ok _ _ zero) by (destruct I; lia). cbn [bind]. rewrite wr_ok by lia. reflexivity. }
  exists o'. split; [exact E|]. eapply rep_ext; [exact H|]. intros z x y Hz Hx Hy. cbv beta.
  rewrite (proj2 (Nat.ltb_lt _ _) Hx). cbn [andb]. destruct (y <? n) eqn:Yn; [|reflexivity]. do 2 f_equal. apply I; auto.
Qed.

Lemma nth_skipn {X} n (l : list X) i d : nth i (skipn n l) d = nth (n + i) l d.
Proof. revert n; induction l as [|x l IH]; intros [|n]; cbn; auto; destruct i; auto. Qed.

Lemma rep_skipn nq m n l f : m <= nq -> rep nq n l f -> rep (nq - m) n (skipn (m * n * nCr) l) (fun z x y => f z (m + x) y).
Proof.
  intros Hm (L & V). split; [rewrite skipn_length, L, !Nat.mul_sub_distr_r; reflexivity|]. intros z x y Hz Hx Hy. rewrite nth_skipn.
  rewrite <- V by lia. f_equal. unfold pos. lia.
Qed.

End V.

Lemma sized_upd {X} n k (l : list (list X)) i v : sized n k l -> length v = k -> sized n k (upd l i v).
Proof.
  intros (L & S) Lv. split; [now rewrite length_upd|]. intros j Hj. destruct (Nat.eq_dec i j) as [->|N].
  - rewrite nth_upd_eq by lia. auto.
  - rewrite nth_upd_ne by auto. auto.
Qed.
Lemma rd_sized {X} n k (l : list (list X)) i : sized n k l -> i < n -> rd l i = Ok (nth i l []).
Proof. intros (L & S) H. apply rd_ok. lia. Qed.
Lemma wr_sized {X} n k (l : list (list X)) i v : sized n k l -> i < n -> wr l i v = Ok (upd l i v).
Proof. intros (L & S) H. apply wr_ok. lia. Qed.
