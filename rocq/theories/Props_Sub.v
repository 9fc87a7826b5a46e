(** Sub-cell limiter: detection of inadmissible solutions (C42), kernels (C54), steering (C55), sub-grids of faces (C56). *)
From Coq Require Import Permutation.
From Verif Require Import Util SubCell SourceProofs.

(** loop whose iterations change disjoint sets of cells *)
Lemma loopC {S C V} (get : C -> S -> V) (dom : C -> Prop) (row : C -> nat) (f : C -> V -> V) (ok : S -> Prop) lo hi B s0 : lo <= hi ->
  (forall x s, lo <= x < hi -> ok s -> exists s', B x s = Ok s' /\ ok s' /\ forall c, dom c -> get c s' = if row c =? x then f c (get c s) else get c s) ->
  ok s0 -> exists s', for_ lo hi B s0 = Ok s' /\ ok s' /\ forall c, dom c -> get c s' = if (lo <=? row c) && (row c <? hi) then f c (get c s0) else get c s0.
Proof.
  intros LH HB H0.
  destruct (for_ok (fun k s => ok s /\ forall c, dom c -> get c s = if (lo <=? row c) && (row c <? k) then f c (get c s0) else get c s0) lo hi B s0 LH) as (s' & E & H1 & H2).
  - split; [auto|]. intros c Hc. destruct (Nat.leb_spec lo (row c)); [|reflexivity]. rewrite (proj2 (Nat.ltb_ge (row c) lo)) by auto. reflexivity.
  - intros k s Hk (I1 & I2). destruct (HB k s Hk I1) as (s' & E & O & G). exists s'. split; [exact E|]. split; [exact O|]. intros c Hc. rewrite G, I2 by auto.
    destruct (Nat.eqb_spec (row c) k) as [X|X].
    + rewrite (proj2 (Nat.leb_le lo (row c))) by lia. rewrite (proj2 (Nat.ltb_ge (row c) k)) by lia. rewrite (proj2 (Nat.ltb_lt (row c) (Datatypes.S k))) by lia. reflexivity.
    + replace (row c <? Datatypes.S k) with (row c <? k); [reflexivity|]. destruct (Nat.ltb_spec (row c) k), (Nat.ltb_spec (row c) (Datatypes.S k)); auto; lia.
  - exists s'. auto.
Qed.

(** nest of two loops, cells (x, y) *)
Lemma nestC {S V} (get : nat * nat -> S -> V) (f : nat * nat -> V -> V) (ok : S -> Prop) m n B s0 :
  (forall x y s, x < m -> y < n -> ok s -> exists s', B x y s = Ok s' /\ ok s' /\
     forall c, fst c < m -> snd c < n -> get c s' = if (fst c =? x) && (snd c =? y) then f c (get c s) else get c s) ->
  ok s0 -> exists s', for_ 0 m (fun x s => for_ 0 n (fun y s => B x y s) s) s0 = Ok s' /\ ok s' /\ forall x y, x < m -> y < n -> get (x, y) s' = f (x, y) (get (x, y) s0).
Proof.
  intros HB H0.
  destruct (loopC get (fun c => fst c < m /\ snd c < n) fst f ok 0 m (fun x s => for_ 0 n (fun y s => B x y s) s) s0) as (s' & E & O & G); [lia| |exact H0|].
  - intros x s Hx Hs. destruct (loopC get (fun c => fst c < m /\ snd c < n) snd (fun c v => if fst c =? x then f c v else v) ok 0 n (fun y s => B x y s) s) as (s' & E & O & G); [lia| |exact Hs|].
    + intros y s1 Hy Hs1. destruct (HB x y s1 ltac:(lia) ltac:(lia) Hs1) as (s2 & E & O & G). exists s2. split; [exact E|]. split; [exact O|]. intros c (H1 & H2). rewrite G by auto. destruct (fst c =? x), (snd c =? y); reflexivity.
    + exists s'. split; [exact E|]. split; [exact O|]. intros c Hc. rewrite G by auto. cbn [Nat.leb andb]. rewrite (proj2 (Nat.ltb_lt (snd c) n)) by lia. reflexivity.
  - exists s'. split; [exact E|]. split; [exact O|]. intros x y Hx Hy. rewrite G by (cbn; auto). cbn [fst Nat.leb andb]. rewrite (proj2 (Nat.ltb_lt x m)) by lia. reflexivity.
Qed.

Lemma at_lt nQt nCr qt cr : qt < nQt -> cr < nCr -> qt * nCr + cr < nQt * nCr.
Proof. intros. nia. Qed.
Lemma at_inj nCr qt cr qt' cr' : cr < nCr -> cr' < nCr -> qt * nCr + cr = qt' * nCr + cr' -> qt = qt' /\ cr = cr'.
Proof. intros. apply (flat_inj nCr); auto. Qed.

(** one write of a two-dimensional array *)
Lemma wr2 {A} nQt nCr (l : list A) (e : A) x y v c : length l = nQt * nCr -> x < nQt -> y < nCr -> fst c < nQt -> snd c < nCr ->
  nth (fst c * nCr + snd c) (upd l (x * nCr + y) v) e = if (fst c =? x) && (snd c =? y) then v else nth (fst c * nCr + snd c) l e.
Proof.
  intros L Hx Hy H1 H2. assert (B := at_lt nQt nCr x y Hx Hy). destruct (Nat.eq_dec (x * nCr + y) (fst c * nCr + snd c)) as [E|E].
  - rewrite <- E. rewrite nth_upd_eq by lia. apply at_inj in E as (-> & ->); auto. rewrite !Nat.eqb_refl. reflexivity.
  - rewrite nth_upd_ne by auto. destruct (Nat.eqb_spec (fst c) x) as [X|]; [|reflexivity]. destruct (Nat.eqb_spec (snd c) y) as [Y|]; [|reflexivity]. exfalso. apply E. congruence.
Qed.

Lemma at3_lt nQt nCr n qt sc cr : qt < nQt -> sc < n -> cr < nCr -> (qt * n + sc) * nCr + cr < nQt * n * nCr.
Proof. intros. assert (qt * n + sc < nQt * n) by nia. nia. Qed.
Lemma at3_inj nCr n qt sc cr qt' sc' cr' : sc < n -> cr < nCr -> sc' < n -> cr' < nCr -> (qt * n + sc) * nCr + cr = (qt' * n + sc') * nCr + cr' -> qt = qt' /\ sc = sc' /\ cr = cr'.
Proof. intros H1 H2 H3 H4 E. apply (flat_inj nCr) in E as (E & ->); auto. apply (flat_inj n) in E as (-> & ->); auto. Qed.

Section Dmp.
Variable T : Type.
Variable d : T.
Variable ltb : T -> T -> bool.
Variables (add sub mul : T -> T -> T) (eps eps0 : T).
Variables (nQt nCr : nat).

Notation at2 l qt cr := (nth (qt * nCr + cr) l d).

Definition sizedP (p : list T * list T) : Prop := length (fst p) = nQt * nCr /\ length (snd p) = nQt * nCr.

Lemma reduce_ok ad red : sizedP ad -> sizedP red -> exists red', dmpReduce T ltb nQt nCr ad red = Ok red' /\ sizedP red' /\ forall qt cr, qt < nQt -> cr < nCr ->
  at2 (fst red') qt cr = smin T ltb (at2 (fst red) qt cr) (at2 (fst ad) qt cr) /\ at2 (snd red') qt cr = smax T ltb (at2 (snd red) qt cr) (at2 (snd ad) qt cr).
Proof.
  intros (A1 & A2) SR. unfold dmpReduce.
  destruct (nestC (fun c r => (at2 (fst r) (fst c) (snd c), at2 (snd r) (fst c) (snd c)))
    (fun c v => (smin T ltb (fst v) (at2 (fst ad) (fst c) (snd c)), smax T ltb (snd v) (at2 (snd ad) (fst c) (snd c)))) sizedP nQt nCr
    (fun qt cr '(mn, mx) =>
      a <- rd mn (qt * nCr + cr);; b <- rd (fst ad) (qt * nCr + cr);; mn <- wr mn (qt * nCr + cr) (smin T ltb a b);;
      c <- rd mx (qt * nCr + cr);; e <- rd (snd ad) (qt * nCr + cr);; mx <- wr mx (qt * nCr + cr) (smax T ltb c e);; Ok (mn, mx)) red) as (r & E & S & G); [|exact SR|].
  - intros x y (mn, mx) Hx Hy (S1 & S2). cbn [fst snd] in S1, S2. assert (B := at_lt nQt nCr x y Hx Hy). rewrite !(rd_ok _ _ d) by lia. cbn [bind]. rewrite wr_ok by lia. cbn [bind]. rewrite wr_ok by lia. cbn [bind].
    eexists. split; [reflexivity|]. split; [split; cbn [fst snd]; rewrite length_upd; auto|]. intros c H1 H2. cbn [fst snd]. rewrite !(wr2 nQt nCr) by auto.
    destruct (Nat.eqb_spec (fst c) x) as [->|]; [|reflexivity]. destruct (Nat.eqb_spec (snd c) y) as [->|]; reflexivity.
  - exists r. split; [exact E|]. split; [exact S|]. intros qt cr Hq Hc. specialize (G qt cr Hq Hc). cbn [fst snd] in G. inversion G. auto.
Qed.

(** reduction over a list of neighbours *)
Definition redMin (cur : list T * list T) (nb : list (list T * list T)) (qt cr : nat) : T := fold_left (fun v p => smin T ltb v (at2 (fst p) qt cr)) nb (at2 (fst cur) qt cr).
Definition redMax (cur : list T * list T) (nb : list (list T * list T)) (qt cr : nat) : T := fold_left (fun v p => smax T ltb v (at2 (snd p) qt cr)) nb (at2 (snd cur) qt cr).

(** test of a quantity *)
Definition test (lo hi cmin cmax : T) : bool :=
  let de := smax T ltb eps0 (mul eps (sub hi lo)) in negb (ltb cmin (sub lo de) || ltb (add hi de) cmax).

Lemma check_ok red can delta adm : sizedP red -> sizedP can -> length delta = nQt * nCr -> length adm = nCr -> exists adm',
  dmpCheck T ltb add sub mul nQt nCr eps eps0 red can delta adm = Ok adm' /\ length adm' = nCr /\
  forall cr, cr < nCr -> nth cr adm' false = nth cr adm false && forallb (fun qt => test (at2 (fst red) qt cr) (at2 (snd red) qt cr) (at2 (fst can) qt cr) (at2 (snd can) qt cr)) (seq 0 nQt).
Proof.
  intros (R1 & R2) (C1 & C2) LD LA. unfold dmpCheck.
  destruct (nestC (fun c (r : list T) => at2 r (fst c) (snd c)) (fun c v => smax T ltb eps0 (mul eps (sub (at2 (snd red) (fst c) (snd c)) (at2 (fst red) (fst c) (snd c))))) (fun l => length l = nQt * nCr) nQt nCr
    (fun qt cr de => b <- rd (snd red) (qt * nCr + cr);; a <- rd (fst red) (qt * nCr + cr);; de <- wr de (qt * nCr + cr) (mul eps (sub b a));; x <- rd de (qt * nCr + cr);; wr de (qt * nCr + cr) (smax T ltb eps0 x)) delta) as (de & E & S & G); [|exact LD|].
  - intros x y l Hx Hy L. assert (B := at_lt nQt nCr x y Hx Hy). rewrite !(rd_ok _ _ d) by lia. cbn [bind]. rewrite wr_ok by lia. cbn [bind]. rewrite (rd_ok _ _ d) by (rewrite length_upd; lia). cbn [bind]. rewrite wr_ok by (rewrite length_upd; lia).
    eexists. split; [reflexivity|]. split; [rewrite !length_upd; auto|]. intros c H1 H2. rewrite (wr2 nQt nCr) by (rewrite ?length_upd; auto). rewrite nth_upd_eq by lia. destruct (Nat.eqb_spec (fst c) x) as [X|X]; cbn [andb].
    + destruct (Nat.eqb_spec (snd c) y) as [Y|Y]; [rewrite X, Y; reflexivity|]. rewrite (wr2 nQt nCr) by auto. rewrite (proj2 (Nat.eqb_neq _ _) Y), andb_false_r. reflexivity.
    + rewrite (wr2 nQt nCr) by auto. rewrite (proj2 (Nat.eqb_neq _ _) X). reflexivity.
  - rewrite E. cbn [bind]. clear E.
    set (t := fun qt cr => test (at2 (fst red) qt cr) (at2 (snd red) qt cr) (at2 (fst can) qt cr) (at2 (snd can) qt cr)).
    match goal with |- exists adm', for_ 0 nQt ?bd adm = _ /\ _ => destruct (for_ok (fun k a => length a = nCr /\ forall cr, cr < nCr -> nth cr a false = nth cr adm false && forallb (fun qt => t qt cr) (seq 0 k)) 0 nQt bd adm) as (a & E & A1 & A2) end; [lia| | |].
    + split; [auto|]. intros. cbn. rewrite andb_true_r. reflexivity.
    + intros qt a Hq (A1 & A2).
      match goal with |- exists s', for_ 0 nCr ?bd a = _ /\ _ => destruct (loopC (fun cr (a : list bool) => nth cr a false) (fun cr => cr < nCr) (fun cr => cr) (fun cr v => v && t qt cr) (fun a => length a = nCr) 0 nCr bd a) as (a' & E & L & V) end; [lia| |exact A1|].
      * intros cr s Hc L. assert (B := at_lt nQt nCr qt cr ltac:(lia) ltac:(lia)). rewrite !(rd_ok _ _ d) by lia. cbn [bind]. assert (X : t qt cr = negb (ltb (at2 (fst can) qt cr) (sub (at2 (fst red) qt cr) (at2 de qt cr)) || ltb (add (at2 (snd red) qt cr) (at2 de qt cr)) (at2 (snd can) qt cr))).
        { unfold t, test. assert (Y := G qt cr ltac:(lia) ltac:(lia)). cbn [fst snd] in Y. rewrite Y. reflexivity. }
        destruct (ltb _ _ || ltb _ _) eqn:Z; cbn [negb] in X.
        -- rewrite wr_ok by lia. eexists. split; [reflexivity|]. split; [rewrite length_upd; auto|]. intros c Hcc. destruct (Nat.eqb_spec c cr) as [->|N]; [rewrite nth_upd_eq by lia; rewrite X, andb_false_r; reflexivity|rewrite nth_upd_ne by auto; reflexivity].
        -- eexists. split; [reflexivity|]. split; [auto|]. intros c Hcc. destruct (Nat.eqb_spec c cr) as [->|N]; [rewrite X, andb_true_r; reflexivity|reflexivity].
      * exists a'. split; [exact E|]. split; [exact L|]. intros cr Hc. rewrite V by auto. cbn [Nat.leb andb]. rewrite (proj2 (Nat.ltb_lt cr nCr)) by auto. rewrite A2 by auto. rewrite seq_snoc, forallb_app. cbn. rewrite andb_true_r, andb_assoc. reflexivity.
    + exists a. split; [exact E|]. split; [exact A1|]. exact A2.
Qed.

Lemma init_ok adm : length adm = nCr -> exists a, for_ 0 nCr (fun cr (adm : list bool) => wr adm cr true) adm = Ok a /\ length a = nCr /\ forall cr, cr < nCr -> nth cr a false = true.
Proof.
  intros L. destruct (loopC (fun cr (a : list bool) => nth cr a false) (fun cr => cr < nCr) (fun cr => cr) (fun cr v => true) (fun a => length a = nCr) 0 nCr (fun cr adm => wr adm cr true) adm) as (a & E & L1 & V); [lia| |exact L|].
  - intros x s Hx Ls. rewrite wr_ok by lia. eexists. split; [reflexivity|]. split; [rewrite length_upd; auto|]. intros c Hc. destruct (Nat.eqb_spec c x) as [->|N]; [apply nth_upd_eq; lia|apply nth_upd_ne; auto].
  - exists a. split; [exact E|]. split; [exact L1|]. intros cr Hc. rewrite V by auto. cbn [Nat.leb andb]. rewrite (proj2 (Nat.ltb_lt cr nCr)) by auto. reflexivity.
Qed.

(** the computed value for the list of all neighbours *)
Definition admits (cur : list T * list T) (nb : list (list T * list T)) (can : list T * list T) (cr : nat) : bool :=
  forallb (fun qt => test (redMin cur nb qt cr) (redMax cur nb qt cr) (at2 (fst can) qt cr) (at2 (snd can) qt cr)) (seq 0 nQt).

Lemma reduceAll cur nb : sizedP cur -> Forall sizedP nb -> exists red, fold_left (fun r ad => red <- r;; dmpReduce T ltb nQt nCr ad red) nb (Ok cur) = Ok red /\ sizedP red /\
  forall qt cr, qt < nQt -> cr < nCr -> at2 (fst red) qt cr = redMin cur nb qt cr /\ at2 (snd red) qt cr = redMax cur nb qt cr.
Proof.
  revert cur. induction nb as [|p nb IH]; intros cur SC FA.
  - exists cur. split; [reflexivity|]. split; [auto|]. intros. split; reflexivity.
  - inversion FA; subst. destruct (reduce_ok p cur) as (r & E & S & G); auto. cbn [fold_left bind]. rewrite E. destruct (IH r S) as (r' & E' & S' & G'); auto. exists r'. split; [exact E'|]. split; [exact S'|].
    intros qt cr Hq Hc. destruct (G' qt cr Hq Hc) as (-> & ->). destruct (G qt cr Hq Hc) as (G1 & G2). unfold redMin, redMax. cbn [fold_left]. rewrite G1, G2. split; reflexivity.
Qed.

(** the neighbours of a list of ids *)
Definition nbOf (curAd : list (list T * list T)) (ids : list nat) : list (list T * list T) := map (fun id => nth id curAd ([], [])) ids.

Lemma for_fold {A B} (f : A -> B -> res B) (l : list A) (bd : nat -> B -> res B) : (forall k x, nth_error l k = Some x -> forall b, bd k b = f x b) ->
  forall b, for_ 0 (length l) bd b = fold_left (fun r x => y <- r;; f x y) l (Ok b).
Proof.
  unfold for_. rewrite Nat.sub_0_r. intros H b.
  assert (G : forall l i, (forall k x, nth_error l k = Some x -> forall b, bd (i + k) b = f x b) -> forall b, for_n (length l) i bd b = fold_left (fun r x => y <- r;; f x y) l (Ok b)).
  { clear. assert (ER : forall l e, fold_left (fun r (x : A) => y <- r;; f x y) l (Er e) = Er e) by (induction l; cbn; auto). induction l as [|a l IH]; intros i H b; cbn; [reflexivity|].
    assert (X := H 0 a eq_refl b). rewrite Nat.add_0_r in X. rewrite X. destruct (f a b) as [b'|e]; cbn [bind]; [|symmetry; apply ER]. apply IH. intros k x Hk b0. rewrite Nat.add_succ_l, <- Nat.add_succ_r. apply (H (S k) x). exact Hk. }
  apply G. exact H.
Qed.

Lemma dmpVe_ok cur curAd can ids delta adm : sizedP cur -> sizedP can -> Forall sizedP curAd -> Forall (fun id => id < length curAd) ids -> length delta = nQt * nCr -> length adm = nCr ->
  exists adm', dmpVe T ltb add sub mul nQt nCr eps eps0 cur curAd can ids delta adm = Ok adm' /\ length adm' = nCr /\ forall cr, cr < nCr -> nth cr adm' false = admits cur (nbOf curAd ids) can cr.
Proof.
  intros SC SN SA FI LD LA. unfold dmpVe. destruct (init_ok adm LA) as (a & E & L1 & V1). rewrite E. cbn [bind]. clear E.
  rewrite (for_fold (fun id red => ad <- rd curAd id;; dmpReduce T ltb nQt nCr ad red) ids) by (intros k x Hk b; rewrite (rd_some _ _ _ Hk); reflexivity).
  assert (EQ : forall l r0, Forall (fun id => id < length curAd) l -> fold_left (fun r id => red <- r;; ad <- rd curAd id;; dmpReduce T ltb nQt nCr ad red) l r0 = fold_left (fun r ad => red <- r;; dmpReduce T ltb nQt nCr ad red) (nbOf curAd l) r0).
  { clear - d. induction l as [|i l IH]; intros r0 F; [reflexivity|]. inversion F; subst. cbn [nbOf map fold_left]. rewrite IH by auto. f_equal. destruct r0; cbn [bind]; [|reflexivity]. rewrite (rd_ok _ _ ([], [])) by auto. reflexivity. }
  rewrite EQ by auto. destruct (reduceAll cur (nbOf curAd ids) SC) as (red & E & S & G).
  { apply Forall_forall. intros p Hp. apply in_map_iff in Hp as (i & <- & Hi). rewrite Forall_forall in SA, FI. apply SA, nth_In. auto. }
  rewrite E. cbn [bind]. destruct (check_ok red can delta a S SN LD L1) as (adm' & E' & L' & V'). exists adm'. split; [exact E'|]. split; [exact L'|]. intros cr Hc. rewrite V', V1 by auto. cbn [andb]. unfold admits.
  assert (X : forall n, n <= nQt -> forallb (fun qt => test (at2 (fst red) qt cr) (at2 (snd red) qt cr) (at2 (fst can) qt cr) (at2 (snd can) qt cr)) (seq 0 n) =
     forallb (fun qt => test (redMin cur (nbOf curAd ids) qt cr) (redMax cur (nbOf curAd ids) qt cr) (at2 (fst can) qt cr) (at2 (snd can) qt cr)) (seq 0 n)); [|apply X; lia].
  induction n as [|n IH]; intros Hn; [reflexivity|]. rewrite seq_snoc, !forallb_app, IH by lia. cbn [forallb plus]. destruct (G n cr ltac:(lia) Hc) as (-> & ->). reflexivity.
Qed.

Definition defined (l : list (option nat)) : list nat := flat_map (fun o => match o with Some i => [i] | None => [] end) l.

Lemma dmpFa_ok cur curAd can elFaEl delta adm : sizedP cur -> sizedP can -> Forall sizedP curAd -> Forall (fun id => id < length curAd) (defined elFaEl) -> length delta = nQt * nCr -> length adm = nCr ->
  exists adm', dmpFa T ltb add sub mul nQt nCr eps eps0 cur curAd can elFaEl delta adm = Ok adm' /\ length adm' = nCr /\ forall cr, cr < nCr -> nth cr adm' false = admits cur (nbOf curAd (defined elFaEl)) can cr.
Proof.
  intros SC SN SA FI LD LA. destruct (dmpVe_ok cur curAd can (defined elFaEl) delta adm SC SN SA FI LD LA) as (adm' & E & R). exists adm'. split; [|exact R]. rewrite <- E. unfold dmpFa, dmpVe.
  destruct (for_ 0 nCr _ adm) as [a|]; cbn [bind]; [|reflexivity]. f_equal.
  rewrite (for_fold (fun o red => match o with Some id => ad <- rd curAd id;; dmpReduce T ltb nQt nCr ad red | None => Ok red end) elFaEl) by (intros k x Hk b; rewrite (rd_some _ _ _ Hk); reflexivity).
  rewrite (for_fold (fun id red => ad <- rd curAd id;; dmpReduce T ltb nQt nCr ad red) (defined elFaEl)) by (intros k x Hk b; rewrite (rd_some _ _ _ Hk); reflexivity).
  clear. generalize (Ok cur) as r. induction elFaEl as [|[i|] l IH]; intros r; cbn [defined flat_map app fold_left]; [reflexivity|apply IH|]. rewrite IH. f_equal. destruct r; reflexivity.
Qed.

(** ** Specification *)
Definition smallest (v : T) (l : list T) : Prop := In v l /\ forall x, In x l -> ltb x v = false.
Definition greatest (v : T) (l : list T) : Prop := In v l /\ forall x, In x l -> ltb v x = false.

(** the candidate's extrema of quantity qt of simulation cr are within the relaxed extrema of the element itself and its neighbours *)
Definition within (all : list (list T * list T)) (can : list T * list T) (qt cr : nat) : Prop := exists lo hi de,
  smallest lo (map (fun p => at2 (fst p) qt cr) all) /\ greatest hi (map (fun p => at2 (snd p) qt cr) all) /\ greatest de [eps0; mul eps (sub hi lo)] /\
  ltb (at2 (fst can) qt cr) (sub lo de) = false /\ ltb (add hi de) (at2 (snd can) qt cr) = false.

(** strict total order *)
Definition ordered : Prop := (forall a, ltb a a = false) /\ (forall a b c, ltb a b = true -> ltb b c = true -> ltb a c = true) /\ (forall a b, ltb a b = false -> ltb b a = false -> a = b).

Section Spec.
Hypothesis ORD : ordered.

Lemma nlt_trans a b c : ltb a b = false -> ltb b c = false -> ltb a c = false.
Proof.
  destruct ORD as (IR & TR & TO). intros H1 H2. destruct (ltb a c) eqn:E; auto. destruct (ltb b a) eqn:E1.
  - rewrite (TR b a c E1 E) in H2. discriminate.
  - rewrite (TO a b H1 E1) in E. congruence.
Qed.

Lemma minFold {A} (g : A -> T) l v : smallest (fold_left (fun v p => smin T ltb v (g p)) l v) (v :: map g l).
Proof.
  revert v. induction l as [|a l IH]; intros v; cbn [fold_left map].
  - split; [left; auto|]. intros x [<-|[]]. apply ORD.
  - destruct (IH (smin T ltb v (g a))) as (I1 & I2). split.
    + destruct I1 as [<-|I1]; [|right; right; exact I1]. unfold smin. destruct (ltb (g a) v); [right; left|left]; auto.
    + assert (HM := I2 _ (or_introl eq_refl)). intros x [<-|[<-|Hx]]; [| |apply I2; right; auto]; eapply nlt_trans; [|exact HM| |exact HM]; unfold smin; destruct (ltb (g a) v) eqn:E; try apply ORD.
      * destruct (ltb v (g a)) eqn:E2; auto. destruct ORD as (IR & TR & _). rewrite <- (IR v). symmetry. eapply TR; eauto.
      * exact E.
Qed.

Lemma maxFold {A} (g : A -> T) l v : greatest (fold_left (fun v p => smax T ltb v (g p)) l v) (v :: map g l).
Proof.
  revert v. induction l as [|a l IH]; intros v; cbn [fold_left map].
  - split; [left; auto|]. intros x [<-|[]]. apply ORD.
  - destruct (IH (smax T ltb v (g a))) as (I1 & I2). split.
    + destruct I1 as [<-|I1]; [|right; right; exact I1]. unfold smax. destruct (ltb v (g a)); [right; left|left]; auto.
    + assert (HM := I2 _ (or_introl eq_refl)). intros x [<-|[<-|Hx]]; [| |apply I2; right; auto]; (eapply nlt_trans; [exact HM|]); unfold smax; destruct (ltb v (g a)) eqn:E; try apply ORD.
      * destruct (ltb (g a) v) eqn:E2; auto. destruct ORD as (IR & TR & _). rewrite <- (IR v). symmetry. eapply TR; eauto.
      * exact E.
Qed.

Lemma smallest_unique v w l : smallest v l -> smallest w l -> v = w.
Proof. intros (A1 & A2) (B1 & B2). apply ORD; auto. Qed.
Lemma greatest_unique v w l : greatest v l -> greatest w l -> v = w.
Proof. intros (A1 & A2) (B1 & B2). apply ORD; auto. Qed.

Lemma admits_spec cur nb can cr : admits cur nb can cr = true <-> forall qt, qt < nQt -> within (cur :: nb) can qt cr.
Proof.
  unfold admits. rewrite forallb_forall. split.
  - intros H qt Hq. specialize (H qt ltac:(apply in_seq; lia)). unfold test in H. apply negb_true_iff, orb_false_iff in H as (H1 & H2). 
    exists (redMin cur nb qt cr), (redMax cur nb qt cr), (smax T ltb eps0 (mul eps (sub (redMax cur nb qt cr) (redMin cur nb qt cr)))).
    split; [apply (minFold (fun p => at2 (fst p) qt cr))|]. split; [apply (maxFold (fun p => at2 (snd p) qt cr))|]. split; [|auto]. apply (maxFold (fun x => x) [_]).
  - intros H qt Hq. apply in_seq in Hq. destruct (H qt ltac:(lia)) as (lo & hi & de & W1 & W2 & W3 & W4 & W5).
    assert (lo = redMin cur nb qt cr) by (eapply smallest_unique; [exact W1|apply (minFold (fun p => at2 (fst p) qt cr))]). assert (hi = redMax cur nb qt cr) by (eapply greatest_unique; [exact W2|apply (maxFold (fun p => at2 (snd p) qt cr))]). subst lo hi.
    unfold test. set (q := mul eps _) in *. assert (de = smax T ltb eps0 q) by (eapply greatest_unique; [exact W3|apply (maxFold (fun x => x) [q])]). subst de. rewrite W4, W5. reflexivity.
Qed.

(** C42: neighbourhood given by the vertices *)
Theorem C42_vertex cur curAd can ids delta adm : sizedP cur -> sizedP can -> Forall sizedP curAd -> Forall (fun id => id < length curAd) ids -> length delta = nQt * nCr -> length adm = nCr ->
  exists adm', dmpVe T ltb add sub mul nQt nCr eps eps0 cur curAd can ids delta adm = Ok adm' /\ length adm' = nCr /\
  forall cr, cr < nCr -> (nth cr adm' false = true <-> forall qt, qt < nQt -> within (cur :: nbOf curAd ids) can qt cr).
Proof.
  intros SC SN SA FI LD LA. destruct (dmpVe_ok cur curAd can ids delta adm SC SN SA FI LD LA) as (adm' & E & L & V). exists adm'. split; [exact E|]. split; [exact L|]. intros cr Hc. rewrite V by auto. apply admits_spec.
Qed.

(** C42: neighbourhood given by the faces; faces at the boundary are ignored *)
Theorem C42_face cur curAd can elFaEl delta adm : sizedP cur -> sizedP can -> Forall sizedP curAd -> Forall (fun id => id < length curAd) (defined elFaEl) -> length delta = nQt * nCr -> length adm = nCr ->
  exists adm', dmpFa T ltb add sub mul nQt nCr eps eps0 cur curAd can elFaEl delta adm = Ok adm' /\ length adm' = nCr /\
  forall cr, cr < nCr -> (nth cr adm' false = true <-> forall qt, qt < nQt -> within (cur :: nbOf curAd (defined elFaEl)) can qt cr).
Proof.
  intros SC SN SA FI LD LA. destruct (dmpFa_ok cur curAd can elFaEl delta adm SC SN SA FI LD LA) as (adm' & E & L & V). exists adm'. split; [exact E|]. split; [exact L|]. intros cr Hc. rewrite V by auto. apply admits_spec.
Qed.

(** C42: the order of the neighbours is irrelevant *)
Theorem C42_order cur curAd can ids ids' delta adm : sizedP cur -> sizedP can -> Forall sizedP curAd -> Forall (fun id => id < length curAd) ids -> length delta = nQt * nCr -> length adm = nCr -> Permutation ids ids' ->
  dmpVe T ltb add sub mul nQt nCr eps eps0 cur curAd can ids delta adm = dmpVe T ltb add sub mul nQt nCr eps eps0 cur curAd can ids' delta adm.
Proof.
  intros SC SN SA FI LD LA P. destruct (dmpVe_ok cur curAd can ids delta adm SC SN SA FI LD LA) as (a1 & E1 & L1 & V1). destruct (dmpVe_ok cur curAd can ids' delta adm SC SN SA (Permutation_Forall P FI) LD LA) as (a2 & E2 & L2 & V2).
  rewrite E1, E2. f_equal. apply (nth_ext _ _ false false); [congruence|]. intros cr Hc. rewrite V1, V2 by lia. apply eq_true_iff_eq. rewrite !admits_spec.
  assert (PN : forall g : list T * list T -> T, Permutation (map g (cur :: nbOf curAd ids)) (map g (cur :: nbOf curAd ids'))) by (intros g; apply Permutation_map; constructor; apply Permutation_map; exact P).
  assert (SM : forall v l l', Permutation l l' -> smallest v l -> smallest v l') by (intros v l l' Q (H1 & H2); split; [eapply Permutation_in; eauto|intros x Hx; apply H2, (Permutation_in _ (Permutation_sym Q)), Hx]).
  assert (GM : forall v l l', Permutation l l' -> greatest v l -> greatest v l') by (intros v l l' Q (H1 & H2); split; [eapply Permutation_in; eauto|intros x Hx; apply H2, (Permutation_in _ (Permutation_sym Q)), Hx]).
  split; intros H qt Hq; destruct (H qt Hq) as (lo & hi & de & W1 & W2 & W3); exists lo, hi, de; (split; [eapply SM; [|exact W1]|split; [eapply GM; [|exact W2]|exact W3]]); auto using Permutation_sym.
Qed.
End Spec.

(** C42: simulation cr's result depends only on simulation cr's values, in any arithmetic *)
Theorem C42_fused cur cur' curAd curAd' can can' elFaEl delta adm cr : sizedP cur -> sizedP can -> Forall sizedP curAd -> sizedP cur' -> sizedP can' -> Forall sizedP curAd' -> length curAd = length curAd' ->
  Forall (fun id => id < length curAd) (defined elFaEl) -> length delta = nQt * nCr -> length adm = nCr -> cr < nCr ->
  let same := fun p p' : list T * list T => forall qt, qt < nQt -> at2 (fst p) qt cr = at2 (fst p') qt cr /\ at2 (snd p) qt cr = at2 (snd p') qt cr in
  same cur cur' -> same can can' -> (forall id, id < length curAd -> same (nth id curAd ([], [])) (nth id curAd' ([], []))) ->
  exists a a', dmpFa T ltb add sub mul nQt nCr eps eps0 cur curAd can elFaEl delta adm = Ok a /\ dmpFa T ltb add sub mul nQt nCr eps eps0 cur' curAd' can' elFaEl delta adm = Ok a' /\ nth cr a false = nth cr a' false.
Proof.
  intros SC SN SA SC' SN' SA' LA FI LD LM Hc same H1 H2 H3. destruct (dmpFa_ok cur curAd can elFaEl delta adm) as (a & E & L & V); auto. destruct (dmpFa_ok cur' curAd' can' elFaEl delta adm) as (a' & E' & L' & V'); auto. { rewrite <- LA. exact FI. }
  exists a, a'. split; [exact E|]. split; [exact E'|]. rewrite V, V' by auto. unfold admits.
  assert (RR : forall qt, qt < nQt -> redMin cur (nbOf curAd (defined elFaEl)) qt cr = redMin cur' (nbOf curAd' (defined elFaEl)) qt cr /\ redMax cur (nbOf curAd (defined elFaEl)) qt cr = redMax cur' (nbOf curAd' (defined elFaEl)) qt cr).
  { intros qt Hq. unfold redMin, redMax. destruct (H1 qt Hq) as (-> & ->). generalize (at2 (fst cur') qt cr) as v. generalize (at2 (snd cur') qt cr) as w. clear - FI H3 Hq. induction (defined elFaEl) as [|i l IH]; intros w v; [split; reflexivity|].
    inversion FI; subst. cbn [nbOf map fold_left]. destruct (H3 i H1 qt Hq) as (X & Y). rewrite X, Y. apply IH. auto. }
  assert (X : forall n, n <= nQt -> forallb (fun qt => test (redMin cur (nbOf curAd (defined elFaEl)) qt cr) (redMax cur (nbOf curAd (defined elFaEl)) qt cr) (at2 (fst can) qt cr) (at2 (snd can) qt cr)) (seq 0 n) =
    forallb (fun qt => test (redMin cur' (nbOf curAd' (defined elFaEl)) qt cr) (redMax cur' (nbOf curAd' (defined elFaEl)) qt cr) (at2 (fst can') qt cr) (at2 (snd can') qt cr)) (seq 0 n)); [|apply X; lia].
  induction n as [|n IH]; intros Hn; [reflexivity|]. rewrite seq_snoc, !forallb_app, IH by lia. cbn [forallb plus]. destruct (RR n ltac:(lia)) as (-> & ->). destruct (H2 n ltac:(lia)) as (-> & ->). reflexivity.
Qed.
End Dmp.

Print Assumptions C42_vertex.
Print Assumptions C42_face.
Print Assumptions C42_order.
Print Assumptions C42_fused.

(** integers with eps = 1, eps0 = 2, two quantities, two simulations, one boundary face: simulation 1 is not admissible *)
Example C42_ex_order : ordered Z Z.ltb.
Proof. split; [intros; lia|]. split; intros; lia. Qed.
Example C42_ex : dmpFa Z Z.ltb Z.add Z.sub Z.mul 2 2 1%Z 2%Z ([0; 0; 5; 5], [1; 1; 5; 5])%Z [([9; 9; 9; 9], [9; 9; 9; 9]); ([-2; 0; 5; 5], [1; 1; 6; 5])]%Z ([-5; 0; 3; 2], [4; 1; 7; 5])%Z [Some 1; None; Some 1] [77; 77; 77; 77]%Z [false; false] = Ok [true; false].
Proof. reflexivity. Qed.

(** ** Kernels *)
Section Kernels.
Variable T : Type.
Variable d : T.
Variable ltb : T -> T -> bool.
Variables (nQt nCr nSc nSf nFa : nat) (vMax vLow : T).
Notation at2 l qt cr := (nth (qt * nCr + cr) l d).
Notation at3 n l qt sc cr := (nth ((qt * n + sc) * nCr + cr) l d).

(** C54: extrema of a sub-cell solution: smallest and greatest value of each quantity and simulation; the values are in the range of the floating point type *)
Theorem C54_extrema dofs mn mx : ordered T ltb -> 0 < nSc -> length dofs = nQt * nSc * nCr -> length mn = nQt * nCr -> length mx = nQt * nCr ->
  Forall (fun v => ltb vMax v = false /\ ltb v vLow = false) dofs ->
  exists mn' mx', scExtrema T ltb nQt nCr nSc vMax vLow dofs mn mx = Ok (mn', mx') /\ length mn' = nQt * nCr /\ length mx' = nQt * nCr /\
  forall qt cr, qt < nQt -> cr < nCr -> let vals := map (fun sc => at3 nSc dofs qt sc cr) (seq 0 nSc) in
    smallest T ltb (at2 mn' qt cr) vals /\ greatest T ltb (at2 mx' qt cr) vals.
Proof.
  intros ORD HS LD L1 L2 RG. unfold scExtrema.
  set (get := fun (c : nat * nat) (r : list T * list T) => (at2 (fst r) (fst c) (snd c), at2 (snd r) (fst c) (snd c))).
  destruct (nestC get (fun c v => (vMax, vLow)) (sizedP T nQt nCr) nQt nCr (fun qt cr '(mn, mx) => mn <- wr mn (qt * nCr + cr) vMax;; mx <- wr mx (qt * nCr + cr) vLow;; Ok (mn, mx)) (mn, mx)) as (r & E & S & G); [|split; auto|].
  { intros x y (a, b) Hx Hy (S1 & S2). cbn [fst snd] in S1, S2. assert (B := at_lt nQt nCr x y Hx Hy). rewrite !wr_ok by lia. cbn [bind]. eexists. split; [reflexivity|]. split; [split; cbn [fst snd]; rewrite length_upd; auto|].
    intros c H1 H2. unfold get. cbn [fst snd]. rewrite !(wr2 nQt nCr) by auto. destruct (_ && _); reflexivity. }
  rewrite E. cbn [bind]. clear E.
  match goal with |- context [for_ 0 nSc ?bd r] => destruct (for_ok (fun k r => sizedP T nQt nCr r /\ forall qt cr, qt < nQt -> cr < nCr ->
     at2 (fst r) qt cr = fold_left (fun v sc => smin T ltb v (at3 nSc dofs qt sc cr)) (seq 0 k) vMax /\ at2 (snd r) qt cr = fold_left (fun v sc => smax T ltb v (at3 nSc dofs qt sc cr)) (seq 0 k) vLow) 0 nSc bd r) as (r' & E & S' & G') end; [lia| | |].
  { split; [auto|]. intros qt cr Hq Hc. specialize (G qt cr Hq Hc). unfold get in G. cbn [fst snd] in G. inversion G. auto. }
  { intros sc r1 Hs (S1 & G1).
    destruct (nestC get (fun c v => (smin T ltb (fst v) (at3 nSc dofs (fst c) sc (snd c)), smax T ltb (snd v) (at3 nSc dofs (fst c) sc (snd c)))) (sizedP T nQt nCr) nQt nCr
      (fun qt cr '(mn, mx) => a <- rd mn (qt * nCr + cr);; v <- rd dofs ((qt * nSc + sc) * nCr + cr);; mn <- wr mn (qt * nCr + cr) (smin T ltb a v);; b <- rd mx (qt * nCr + cr);; mx <- wr mx (qt * nCr + cr) (smax T ltb b v);; Ok (mn, mx)) r1) as (r2 & E2 & S2 & G2); [|auto|].
    { intros x y (a, b) Hx Hy (SA & SB). cbn [fst snd] in SA, SB. assert (B := at_lt nQt nCr x y Hx Hy). assert (B3 := at3_lt nQt nCr nSc x sc y Hx ltac:(lia) Hy). rewrite !(rd_ok _ _ d) by lia. cbn [bind]. rewrite !wr_ok by lia. cbn [bind].
      eexists. split; [reflexivity|]. split; [split; cbn [fst snd]; rewrite length_upd; auto|].
      intros c H1 H2. unfold get. cbn [fst snd]. rewrite !(wr2 nQt nCr) by auto. destruct (Nat.eqb_spec (fst c) x) as [->|]; [|reflexivity]. destruct (Nat.eqb_spec (snd c) y) as [->|]; reflexivity. }
    exists r2. split; [exact E2|]. split; [exact S2|]. intros qt cr Hq Hc. specialize (G2 qt cr Hq Hc). unfold get in G2. cbn [fst snd] in G2. inversion G2 as [[X Y]]. rewrite X, Y. destruct (G1 qt cr Hq Hc) as (-> & ->). rewrite seq_snoc, !fold_left_app. split; reflexivity. }
  destruct r' as (mn', mx'). exists mn', mx'. split; [exact E|]. destruct S' as (S1 & S2). split; [exact S1|]. split; [exact S2|]. intros qt cr Hq Hc. set (vals := map (fun sc => at3 nSc dofs qt sc cr) (seq 0 nSc)). destruct (G' qt cr Hq Hc) as (V1 & V2). cbn [fst snd] in V1, V2.
  assert (RV : forall x, In x vals -> ltb vMax x = false /\ ltb x vLow = false).
  { intros x Hx. apply in_map_iff in Hx as (sc & <- & Hsc). apply in_seq in Hsc. rewrite Forall_forall in RG. apply RG, nth_In. rewrite LD. apply at3_lt; auto; lia. }
  assert (NE : exists v, In v vals) by (exists (at3 nSc dofs qt 0 cr); apply in_map_iff; exists 0; split; [reflexivity|apply in_seq; lia]). destruct NE as (v0 & Hv0).
  destruct (minFold T ltb ORD (fun sc => at3 nSc dofs qt sc cr) (seq 0 nSc) vMax) as (A1 & A2). destruct (maxFold T ltb ORD (fun sc => at3 nSc dofs qt sc cr) (seq 0 nSc) vLow) as (B1 & B2). rewrite <- V1 in A1, A2. rewrite <- V2 in B1, B2. split.
  - split; [|intros x Hx; apply A2; right; exact Hx]. destruct A1 as [A1|A1]; [|exact A1]. replace (at2 mn' qt cr) with v0; [exact Hv0|]. destruct ORD as (_ & _ & TO). apply TO; [apply A2; right; auto|]. rewrite <- A1. apply RV. auto.
  - split; [|intros x Hx; apply B2; right; exact Hx]. destruct B1 as [B1|B1]; [|exact B1]. replace (at2 mx' qt cr) with v0; [exact Hv0|]. destruct ORD as (_ & _ & TO). apply TO; [rewrite <- B1; apply RV; auto|apply B2; right; auto].
Qed.

(** copy into a three-dimensional array *)
Let cells (c : nat * nat * nat) (o : list T) := fun n => at3 n o (fst (fst c)) (snd (fst c)) (snd c).
Let inside n (c : nat * nat * nat) := fst (fst c) < nQt /\ snd (fst c) < n /\ snd c < nCr.

Lemma rowCopy n (f : nat -> T) (ad : nat -> bool) qt sc B o0 : length o0 = nQt * n * nCr -> qt < nQt -> sc < n ->
  (forall cr o, cr < nCr -> length o = nQt * n * nCr -> B cr o = Ok (upd o ((qt * n + sc) * nCr + cr) (if ad cr then at3 n o qt sc cr else f cr))) ->
  exists o, for_ 0 nCr B o0 = Ok o /\ length o = nQt * n * nCr /\ forall c, inside n c -> cells c o n = if (fst (fst c) =? qt) && (snd (fst c) =? sc) then if ad (snd c) then cells c o0 n else f (snd c) else cells c o0 n.
Proof.
  intros L0 Hq Hs HB. destruct (loopC (fun c o => cells c o n) (inside n) snd (fun c v => if (fst (fst c) =? qt) && (snd (fst c) =? sc) then if ad (snd c) then v else f (snd c) else v) (fun o => length o = nQt * n * nCr) 0 nCr B o0) as (o2 & E2 & LO2 & V2); [lia| |exact L0|].
  - intros cr o2 Hc LO2. rewrite HB by (auto; lia). eexists. split; [reflexivity|]. split; [rewrite length_upd; exact LO2|]. intros ((q, s), c) (H1 & H2 & H3). unfold cells. cbn [fst snd] in *.
    assert (B3 := at3_lt nQt nCr n qt sc cr ltac:(lia) ltac:(lia) ltac:(lia)). destruct (Nat.eq_dec ((qt * n + sc) * nCr + cr) ((q * n + s) * nCr + c)) as [X|X].
    + apply at3_inj in X as (<- & <- & <-); auto; try lia. rewrite nth_upd_eq by lia. rewrite !Nat.eqb_refl. reflexivity.
    + rewrite nth_upd_ne by auto. destruct (Nat.eqb_spec c cr) as [->|]; [|reflexivity]. destruct (Nat.eqb_spec q qt) as [->|]; [|reflexivity]. destruct (Nat.eqb_spec s sc) as [->|]; [|reflexivity]. contradiction.
  - exists o2. split; [exact E2|]. split; [exact LO2|]. intros c Hc. rewrite V2 by auto. cbn [Nat.leb andb]. rewrite (proj2 (Nat.ltb_lt (snd c) nCr)) by apply Hc. reflexivity.
Qed.

Lemma copy3 n (f : nat -> nat -> nat -> T) (ad : nat -> bool) B o0 : length o0 = nQt * n * nCr ->
  (forall qt sc o, qt < nQt -> sc < n -> length o = nQt * n * nCr -> exists o', B qt sc o = Ok o' /\ length o' = nQt * n * nCr /\
     forall c, inside n c -> cells c o' n = if (fst (fst c) =? qt) && (snd (fst c) =? sc) then if ad (snd c) then cells c o n else f qt sc (snd c) else cells c o n) ->
  exists o, for_ 0 nQt (fun qt o => for_ 0 n (fun sc o => B qt sc o) o) o0 = Ok o /\ length o = nQt * n * nCr /\
  forall qt sc cr, qt < nQt -> sc < n -> cr < nCr -> at3 n o qt sc cr = if ad cr then at3 n o0 qt sc cr else f qt sc cr.
Proof.
  intros L0 HB. set (ok := fun o : list T => length o = nQt * n * nCr).
  destruct (loopC (fun c o => cells c o n) (inside n) (fun c => fst (fst c)) (fun c v => if ad (snd c) then v else f (fst (fst c)) (snd (fst c)) (snd c)) ok 0 nQt (fun qt o => for_ 0 n (fun sc o => B qt sc o) o) o0) as (o & E & LO & V); [lia| |exact L0|].
  - intros qt o Hq LO. set (g := fun qt sc cr v => if ad cr then v else f qt sc cr).
    destruct (loopC (fun c o => cells c o n) (inside n) (fun c => snd (fst c)) (fun c v => if fst (fst c) =? qt then g (fst (fst c)) (snd (fst c)) (snd c) v else v) ok 0 n (fun sc o => B qt sc o) o) as (o1 & E1 & LO1 & V1); [lia| |exact LO|].
    + intros sc o1 Hs LO1. destruct (HB qt sc o1 ltac:(lia) ltac:(lia) LO1) as (o2 & E2 & LO2 & V2). exists o2. split; [exact E2|]. split; [exact LO2|]. intros c Hc. rewrite V2 by auto. unfold g.
      destruct (Nat.eqb_spec (fst (fst c)) qt) as [<-|]; cbn [andb]; destruct (Nat.eqb_spec (snd (fst c)) sc) as [<-|]; reflexivity.
    + exists o1. split; [exact E1|]. split; [exact LO1|]. intros c Hc. rewrite V1 by auto. cbn [Nat.leb andb]. rewrite (proj2 (Nat.ltb_lt (snd (fst c)) n)) by apply Hc. reflexivity.
  - exists o. split; [exact E|]. split; [exact LO|]. intros qt sc cr Hq Hs Hc. assert (X := V (qt, sc, cr)). unfold cells, inside in X. cbn [fst snd] in X. rewrite X by auto. cbn [fst snd Nat.leb andb]. rewrite (proj2 (Nat.ltb_lt qt nQt)) by lia. reflexivity.
Qed.

(** C54: the stored sub-cell solution replaces the projected DG-solution of exactly the simulations which are not admissible *)
Theorem C54_replace n scat dofsSc admP : length scat = nQt * n * nCr -> length dofsSc = nQt * n * nCr -> length admP = nCr ->
  exists o, scatterReplace T nQt nCr n scat dofsSc (Some admP) = Ok o /\ length o = nQt * n * nCr /\
  forall qt sc cr, qt < nQt -> sc < n -> cr < nCr -> at3 n o qt sc cr = if nth cr admP false then at3 n scat qt sc cr else at3 n dofsSc qt sc cr.
Proof.
  intros L1 L2 L3. unfold scatterReplace. apply (copy3 n (fun qt sc cr => at3 n dofsSc qt sc cr) (fun cr => nth cr admP false)); [exact L1|].
  intros qt sc o0 Hq Hs L0. apply (rowCopy n (fun cr => at3 n dofsSc qt sc cr) (fun cr => nth cr admP false)); auto. intros cr o Hc L. assert (B := at3_lt nQt nCr n qt sc cr Hq Hs Hc). rewrite (rd_ok _ cr false) by lia. cbn [bind]. destruct (nth cr admP false); rewrite (rd_ok _ _ d) by lia; cbn [bind]; apply wr_ok; lia.
Qed.

(** C54: the surface dofs of the faces with memory are replaced by the values of the sub-cells next to the face, in the order of the adjacent element, for exactly the simulations which are not admissible *)
Theorem C54_surface dofs faSfSc scDgAd vId surf adm : length dofs = nQt * nSc * nCr -> length adm = nCr -> length vId = nFa -> length faSfSc = nFa -> length surf = nFa ->
  Forall (fun row => length row = nSf /\ Forall (fun sc => sc < nSc) row) faSfSc -> Forall (fun row => length row = nSf /\ Forall (fun sf => sf < nSf) row) scDgAd -> Forall (fun v => v < length scDgAd) vId ->
  Forall (fun o => match o with Some l => length l = nQt * nSf * nCr | None => True end) surf ->
  exists surf', gatherSurfDofs T nQt nCr nSc nSf nFa dofs faSfSc scDgAd vId surf adm = Ok surf' /\ length surf' = nFa /\
  forall fa, fa < nFa -> match nth fa surf None with
    | None => nth fa surf' None = None
    | Some l => exists l', nth fa surf' None = Some l' /\ length l' = nQt * nSf * nCr /\ forall qt sf cr, qt < nQt -> sf < nSf -> cr < nCr ->
        at3 nSf l' qt sf cr = if nth cr adm false then at3 nSf l qt sf cr else at3 nSc dofs qt (nth (nth sf (nth (nth fa vId 0) scDgAd []) 0) (nth fa faSfSc []) 0) cr
    end.
Proof.
  intros LD LA LV LF LS FF FS FV FO. unfold gatherSurfDofs. rewrite Forall_forall in FF, FS, FV, FO.
  set (res1 := fun fa (o o' : option (list T)) => match o with
    | None => o' = None
    | Some l => exists l', o' = Some l' /\ length l' = nQt * nSf * nCr /\ forall qt sf cr, qt < nQt -> sf < nSf -> cr < nCr ->
        at3 nSf l' qt sf cr = if nth cr adm false then at3 nSf l qt sf cr else at3 nSc dofs qt (nth (nth sf (nth (nth fa vId 0) scDgAd []) 0) (nth fa faSfSc []) 0) cr end).
  match goal with |- context [for_ 0 nFa ?bd surf] => destruct (for_ok (fun k s => length s = nFa /\ forall fa, fa < nFa -> if fa <? k then res1 fa (nth fa surf None) (nth fa s None) else nth fa s None = nth fa surf None) 0 nFa bd surf) as (s & E & S1 & S2) end; [lia| | |].
  - split; [auto|]. intros fa Hf. reflexivity.
  - intros fa s Hf (S1 & S2). rewrite (rd_ok _ fa None) by lia. cbn [bind]. assert (C := S2 fa ltac:(lia)). rewrite Nat.ltb_irrefl in C. rewrite C. 
    assert (FO' := FO (nth fa surf None) ltac:(apply nth_In; lia)). destruct (nth fa surf None) as [o|] eqn:EO.
    + rewrite (rd_ok _ fa 0) by lia. cbn [bind]. assert (HV := FV (nth fa vId 0) ltac:(apply nth_In; lia)). destruct (FS (nth (nth fa vId 0) scDgAd []) ltac:(apply nth_In; auto)) as (R1 & R2). destruct (FF (nth fa faSfSc []) ltac:(apply nth_In; lia)) as (R3 & R4). rewrite Forall_forall in R2, R4.
      match goal with |- context [for_ 0 nQt ?bd o] => destruct (copy3 nSf (fun qt sf cr => at3 nSc dofs qt (nth (nth sf (nth (nth fa vId 0) scDgAd []) 0) (nth fa faSfSc []) 0) cr) (fun cr => nth cr adm false) 
        (fun qt sf o => row <- rd scDgAd (nth fa vId 0);; sfRe <- rd row sf;; row <- rd faSfSc fa;; sc <- rd row sfRe;; for_ 0 nCr (fun cr o => a <- rd adm cr;;
          x <- (if a : bool then rd o ((qt * nSf + sf) * nCr + cr) else rd dofs ((qt * nSc + sc) * nCr + cr));; wr o ((qt * nSf + sf) * nCr + cr) x) o) o FO') as (o' & E & L' & V') end.
      { intros qt sf o0 Hq Hs L0. rewrite (rd_ok _ _ []) by auto. cbn [bind]. rewrite (rd_ok _ sf 0) by lia. cbn [bind]. rewrite (rd_ok _ fa []) by lia. cbn [bind].
        assert (X := R2 (nth sf (nth (nth fa vId 0) scDgAd []) 0) ltac:(apply nth_In; lia)). rewrite (rd_ok _ _ 0) by lia. cbn [bind]. assert (Y := R4 (nth (nth sf (nth (nth fa vId 0) scDgAd []) 0) (nth fa faSfSc []) 0) ltac:(apply nth_In; lia)).
        apply (rowCopy nSf (fun cr => at3 nSc dofs qt (nth (nth sf (nth (nth fa vId 0) scDgAd []) 0) (nth fa faSfSc []) 0) cr) (fun cr => nth cr adm false)); auto. intros cr o1 Hc L1. assert (B := at3_lt nQt nCr nSf qt sf cr Hq Hs Hc).
        rewrite (rd_ok _ cr false) by lia. cbn [bind]. assert (B' := at3_lt nQt nCr nSc qt _ cr Hq Y Hc). destruct (nth cr adm false); rewrite (rd_ok _ _ d) by lia; cbn [bind]; apply wr_ok; lia. }
      rewrite E. cbn [bind]. rewrite wr_ok by lia. eexists. split; [reflexivity|]. split; [rewrite length_upd; auto|]. intros f Hff. destruct (Nat.eq_dec f fa) as [->|N].
      * rewrite (proj2 (Nat.ltb_lt fa (S fa))) by lia. rewrite nth_upd_eq by lia. rewrite EO. exists o'. auto.
      * rewrite nth_upd_ne by auto. replace (f <? S fa) with (f <? fa); [apply S2; auto|]. destruct (Nat.ltb_spec f fa), (Nat.ltb_spec f (S fa)); auto; lia.
    + exists s. split; [reflexivity|]. split; [auto|]. intros f Hff. destruct (Nat.eq_dec f fa) as [->|N].
      * rewrite (proj2 (Nat.ltb_lt fa (S fa))) by lia. rewrite EO. exact C.
      * replace (f <? S fa) with (f <? fa); [apply S2; auto|]. destruct (Nat.ltb_spec f fa), (Nat.ltb_spec f (S fa)); auto; lia.
  - exists s. split; [exact E|]. split; [exact S1|]. intros fa Hf. specialize (S2 fa Hf). rewrite (proj2 (Nat.ltb_lt fa nFa)) in S2 by auto. exact S2.
Qed.
End Kernels.

Print Assumptions C54_extrema.
Print Assumptions C54_replace.
Print Assumptions C54_surface.

(** one quantity, two simulations, three sub-cells; the second simulation is not admissible *)
Example C54_ex :
  scExtrema Z Z.ltb 1 2 3 100%Z (-100)%Z [3; -7; 1; 50; 2; 0]%Z [9; 9]%Z [9; 9]%Z = Ok ([1; -7], [3; 50])%Z /\
  scatterReplace Z 1 2 3 [10; 11; 12; 13; 14; 15]%Z [3; -7; 1; 50; 2; 0]%Z (Some [true; false]) = Ok [10; -7; 12; 50; 14; 0]%Z /\
  gatherSurfDofs Z 1 2 3 2 2 [3; -7; 1; 50; 2; 0]%Z [[0; 1]; [1; 2]] [[0; 1]; [1; 0]] [0; 1] [None; Some [5; 5; 5; 5]%Z] [true; false] = Ok [None; Some [5; 0; 5; 50]%Z] /\
  Forall (fun v => (100 <? v)%Z = false /\ (v <? -100)%Z = false) [3; -7; 1; 50; 2; 0]%Z.
Proof. repeat split; repeat constructor. Qed.

(** ** Steering *)

(** history of time steps and synchronisations; state: pointers to the buffers, number of time steps since the last synchronisation *)
Inductive ev := Step | Sync.
Definition steer {P} (reset : nat -> list P -> res (list P)) (e : ev) (s : list P * nat) : res (list P * nat) :=
  match e with Step => Ok (fst s, snd s + 1) | Sync => p <- reset (snd s) (fst s);; Ok (p, 0) end.
Fixpoint steers {P} (reset : nat -> list P -> res (list P)) (h : list ev) (s : list P * nat) : res (list P * nat) :=
  match h with [] => Ok s | e :: h => s <- steer reset e s;; steers reset h s end.
Definition nSteps (h : list ev) : nat := length (filter (fun e => match e with Step => true | Sync => false end) h).
(** buffers in the roles of a time step *)
Definition roles {P} (ids : nat -> list nat) (d : P) (s : list P * nat) : list P := map (fun i => nth i (fst s) d) (ids (snd s)).

Lemma even_mod n : (n mod 2 =? 0) = Nat.even n.
Proof. destruct (Nat.even n) eqn:E; [apply Nat.even_spec in E as (k & ->)|]. - rewrite Nat.mul_comm, Nat.mod_mul by lia. reflexivity. - apply Nat.eqb_neq. intros H. apply Nat.mod_divide in H as (k & ->); [|lia]. rewrite Nat.even_mul in E. cbn in E. rewrite orb_true_r in E. discriminate. Qed.

(** C55: admissibility. Whatever the history of time steps and synchronisations, the pair of buffers with the limited solution of a time step is in the role of the previous and
    candidate solution in the next one, and vice versa; synchronisations do not change the role of a buffer *)
Theorem C55_admissibility {P} (d : P) h p0 p1 p2 p3 : exists s, steers resetAdm h ([p0; p1; p2; p3], 0) = Ok s /\
  roles getAdmIds d s = if Nat.even (nSteps h) then [p0; p1; p2; p3] else [p2; p3; p0; p1].
Proof.
  assert (G : forall h ps n, (exists q0 q1 q2 q3, ps = [q0; q1; q2; q3]) -> exists s, steers resetAdm h (ps, n) = Ok s /\
     roles getAdmIds d s = if Nat.even (nSteps h) then roles getAdmIds d (ps, n) else let r := roles getAdmIds d (ps, n) in skipn 2 r ++ firstn 2 r).
  { clear. induction h as [|[|] h IH]; intros ps n (q0 & q1 & q2 & q3 & ->).
    - exists ([q0; q1; q2; q3], n). split; reflexivity.
    - cbn [steers steer fst snd bind]. destruct (IH [q0; q1; q2; q3] (n + 1)) as (s & E & R); [eauto|]. exists s. split; [exact E|]. rewrite R. change (nSteps (Step :: h)) with (S (nSteps h)). rewrite Nat.even_succ, <- Nat.negb_even.
      unfold roles, getAdmIds. cbn [fst snd]. rewrite !even_mod. rewrite Nat.add_1_r, Nat.even_succ, <- Nat.negb_even. destruct (Nat.even n), (Nat.even (nSteps h)); reflexivity.
    - cbn [steers steer fst snd]. assert (X : resetAdm n [q0; q1; q2; q3] = Ok (roles getAdmIds d ([q0; q1; q2; q3], n))) by (unfold resetAdm, roles, getAdmIds; cbn [fst snd]; destruct (n mod 2 =? 0); reflexivity).
      rewrite X. cbn [bind]. destruct (IH (roles getAdmIds d ([q0; q1; q2; q3], n)) 0) as (s & E & R). { unfold roles, getAdmIds. cbn [fst snd]. destruct (n mod 2 =? 0); cbn; eauto 10. }
      exists s. split; [exact E|]. rewrite R. change (nSteps (Sync :: h)) with (nSteps h). unfold roles, getAdmIds. cbn [fst snd]. destruct (n mod 2 =? 0), (Nat.even (nSteps h)); reflexivity. }
  destruct (G h [p0; p1; p2; p3] 0) as (s & E & R); [eauto|]. exists s. split; [exact E|]. rewrite R. reflexivity.
Qed.

(** C55: the same for the two buffers of the extrema and of the dofs *)
Theorem C55_extrema {P} (d : P) h p0 p1 : exists s, steers resetExt h ([p0; p1], 0) = Ok s /\ roles getExtIds d s = if Nat.even (nSteps h) then [p0; p1] else [p1; p0].
Proof.
  assert (M : forall n, n mod 2 = if Nat.even n then 0 else 1). { intros n. rewrite <- even_mod. destruct (Nat.eqb_spec (n mod 2) 0) as [->|]; [reflexivity|]. assert (n mod 2 < 2) by (apply Nat.mod_upper_bound; lia). lia. }
  assert (G : forall h ps n, (exists q0 q1, ps = [q0; q1]) -> exists s, steers resetExt h (ps, n) = Ok s /\
     roles getExtIds d s = if Nat.even (nSteps h) then roles getExtIds d (ps, n) else let r := roles getExtIds d (ps, n) in skipn 1 r ++ firstn 1 r).
  { clear - M. induction h as [|[|] h IH]; intros ps n (q0 & q1 & ->).
    - exists ([q0; q1], n). split; reflexivity.
    - cbn [steers steer fst snd bind]. destruct (IH [q0; q1] (n + 1)) as (s & E & R); [eauto|]. exists s. split; [exact E|]. rewrite R. change (nSteps (Step :: h)) with (S (nSteps h)). rewrite Nat.even_succ, <- Nat.negb_even.
      unfold roles, getExtIds. cbn [fst snd]. rewrite !M. rewrite !Nat.add_1_r, !Nat.even_succ, <- !Nat.negb_even, Nat.even_succ, <- Nat.negb_even. destruct (Nat.even n), (Nat.even (nSteps h)); reflexivity.
    - cbn [steers steer fst snd]. assert (X : resetExt n [q0; q1] = Ok (roles getExtIds d ([q0; q1], n))) by (unfold resetExt, roles, getExtIds; cbn [fst snd]; rewrite !M, Nat.add_1_r, Nat.even_succ, <- Nat.negb_even; destruct (Nat.even n); reflexivity).
      rewrite X. cbn [bind]. destruct (IH (roles getExtIds d ([q0; q1], n)) 0) as (s & E & R). { unfold roles, getExtIds. cbn [fst snd map]. eauto 10. }
      exists s. split; [exact E|]. rewrite R. change (nSteps (Sync :: h)) with (nSteps h). unfold roles, getExtIds. cbn [fst snd]. rewrite !M, Nat.add_1_r, Nat.even_succ, <- Nat.negb_even. destruct (Nat.even n), (Nat.even (nSteps h)); reflexivity. }
  destruct (G h [p0; p1] 0) as (s & E & R); [eauto|]. exists s. split; [exact E|]. rewrite R. reflexivity.
Qed.

(** C55: exactly the counters of the limited elements of the range are reset *)
Theorem C55_counters nCr nLi first size lpLi lim : length lim = nLi * nCr -> first + size <= length lpLi -> (forall lp li, nth lp lpLi None = Some li -> li < nLi) ->
  exists lim', resetLimSync nCr first size lpLi lim = Ok lim' /\ length lim' = length lim /\
  forall li cr, li < nLi -> cr < nCr -> 
    ((exists lp, first <= lp < first + size /\ nth lp lpLi None = Some li) -> nth (li * nCr + cr) lim' 0 = 0) /\
    ((forall lp, first <= lp < first + size -> nth lp lpLi None <> Some li) -> nth (li * nCr + cr) lim' 0 = nth (li * nCr + cr) lim 0).
Proof.
  intros LL LF HL. unfold resetLimSync.
  match goal with |- context [for_ first (first + size) ?bd lim] => destruct (for_ok (fun k l => length l = nLi * nCr /\ forall li cr, li < nLi -> cr < nCr ->
    ((exists lp, first <= lp < k /\ nth lp lpLi None = Some li) -> nth (li * nCr + cr) l 0 = 0) /\ ((forall lp, first <= lp < k -> nth lp lpLi None <> Some li) -> nth (li * nCr + cr) l 0 = nth (li * nCr + cr) lim 0)) first (first + size) bd lim) as (l & E & L & V) end; [lia| | |].
  - split; [auto|]. intros li cr _ _. split; [intros (lp & H & _); lia|reflexivity].
  - intros lp l Hl (L & V). rewrite (rd_ok _ lp None) by lia. cbn [bind]. destruct (nth lp lpLi None) as [li|] eqn:EL.
    + assert (B := HL lp li EL). destruct (loopC (fun c (l : list nat) => nth (fst c * nCr + snd c) l 0) (fun c => fst c < nLi /\ snd c < nCr) snd (fun c v => if fst c =? li then 0 else v) (fun l => length l = nLi * nCr) 0 nCr (fun cr lim => wr lim (li * nCr + cr) 0) l) as (l' & E' & L' & V'); [lia| |exact L|].
      * intros cr l1 Hc L1. assert (B2 := at_lt nLi nCr li cr B ltac:(lia)). rewrite wr_ok by lia. eexists. split; [reflexivity|]. split; [rewrite length_upd; auto|]. intros c (H1 & H2). rewrite (wr2 nLi nCr) by (auto; lia). destruct (fst c =? li), (snd c =? cr); reflexivity.
      * exists l'. split; [exact E'|]. split; [exact L'|]. intros li' cr Hli Hcr. assert (X := V' (li', cr) (conj Hli Hcr)). cbn [fst snd Nat.leb andb] in X. rewrite (proj2 (Nat.ltb_lt cr nCr)) in X by auto. rewrite X. destruct (Nat.eqb_spec li' li) as [->|N].
        -- split; [reflexivity|]. intros H. exfalso. apply (H lp); [lia|exact EL].
        -- destruct (V li' cr Hli Hcr) as (V1 & V2). split.
           ++ intros (q & Hq & Eq). apply V1. exists q. split; [|exact Eq]. destruct (Nat.eq_dec q lp) as [->|]; [congruence|lia].
           ++ intros H. apply V2. intros q Hq. apply H. lia.
    + exists l. split; [reflexivity|]. split; [auto|]. intros li' cr Hli Hcr. destruct (V li' cr Hli Hcr) as (V1 & V2). split.
      * intros (q & Hq & Eq). apply V1. exists q. split; [|exact Eq]. destruct (Nat.eq_dec q lp) as [->|]; [congruence|lia].
      * intros H. apply V2. intros q Hq. apply H. lia.
  - exists l. split; [exact E|]. split; [congruence|exact V].
Qed.

Print Assumptions C55_admissibility.
Print Assumptions C55_extrema.
Print Assumptions C55_counters.

Example C55_ex : exists s, steers resetAdm [Step; Sync; Step; Step; Sync; Sync] ([10; 11; 12; 13], 0) = Ok s /\ roles getAdmIds 0 s = [12; 13; 10; 11] /\
  resetLimSync 2 1 2 [Some 0; None; Some 1] [7; 8; 9; 10] = Ok [7; 8; 0; 0].
Proof. eexists. split; [reflexivity|]. split; reflexivity. Qed.

(** ** Sub-grids of faces *)
Lemma NoDup_app_comm' {A} (l : list A) x : NoDup (x :: l) -> NoDup (l ++ [x]).
Proof. intros H. apply (Permutation_NoDup (Permutation_cons_append l x)). exact H. Qed.

Section FaSg.
Variables (nSf nFaVe nFaSv : nat).

(** the table: the first entries are set *)
Definition table (t : list nat) : list (option nat) := map Some t ++ repeat None (nFaSv - length t).

Lemma search_ok x t old : NoDup t -> length t <= nFaSv -> (In x t \/ length t < nFaSv) ->
  exists p t', faSgSearch nFaSv x (table t) old = Ok (table t', Some p) /\ nth_error t' p = Some x /\ (t' = t \/ t' = t ++ [x] /\ ~ In x t).
Proof.
  intros ND LT C. unfold faSgSearch.
  assert (G : forall k b, length b + k = nFaSv -> (forall y, In y b -> y <> x) -> firstn (length b) t = b -> exists p t',
     forb_n k (length b) (fun cu '(svR, pos) => y <- rd svR cu;; match y with Some y => if y =? x then Ok ((svR, Some cu), true) else Ok ((svR, pos), false) | None => svR <- wr svR cu (Some x);; Ok ((svR, Some cu), true) end) (table t, old) = Ok (table t', Some p) /\ nth_error t' p = Some x /\ (t' = t \/ t' = t ++ [x] /\ ~ In x t)).
  { induction k as [|k IH]; intros b Lb Nb Fb.
    - exfalso. assert (firstn (length b) t = t) by (apply firstn_all2; lia). assert (E : b = t) by congruence. subst b. destruct C as [C|C]; [exact (Nb x C eq_refl)|lia].
    - cbn [forb_n]. destruct (nth_error t (length b)) as [y|] eqn:Ey.
      + assert (Ly : length b < length t) by (apply nth_error_Some; congruence).
        rewrite (rd_some (table t) (length b) (Some y)) by (unfold table; rewrite nth_error_app1 by (rewrite map_length; auto); rewrite nth_error_map, Ey; reflexivity). cbn [bind]. destruct (Nat.eqb_spec y x) as [->|N]; cbn [bind].
        * exists (length b), t. split; [reflexivity|]. auto.
        * destruct (IH (b ++ [y])) as (p & t' & E & R); [rewrite app_length; cbn; lia| | |].
          -- intros z Hz. apply in_app_iff in Hz as [Hz|[<-|[]]]; auto.
          -- rewrite app_length, Nat.add_1_r. rewrite (firstn_S_snoc _ _ y) by auto. rewrite Fb. reflexivity.
          -- rewrite app_length in E. cbn [length] in E. rewrite Nat.add_1_r in E. exists p, t'. split; [exact E|exact R].
      + apply nth_error_None in Ey. assert (E : b = t) by (rewrite <- Fb; apply firstn_all2; auto). subst b.
        rewrite (rd_some (table t) (length t) None) by (unfold table; rewrite nth_error_app2 by (rewrite map_length; auto); rewrite map_length, Nat.sub_diag; replace (nFaSv - length t) with (S k) by lia; reflexivity). cbn [bind].
        rewrite wr_ok by (unfold table; rewrite app_length, map_length, repeat_length; lia). cbn [bind]. exists (length t), (t ++ [x]). split.
        * f_equal. f_equal. unfold table. replace (nFaSv - length t) with (S k) by lia. cbn [repeat]. replace (length t) with (length (map Some t)) by apply map_length. rewrite upd_app_cons. rewrite map_app, <- app_assoc. cbn [map app]. f_equal. f_equal. f_equal. rewrite app_length. cbn. lia.
        * split; [rewrite nth_error_app2, Nat.sub_diag by auto; reflexivity|]. right. split; [reflexivity|]. intros H. exact (Nb x H eq_refl). }
  unfold forb. rewrite Nat.sub_0_r. apply (G nFaSv []); auto.
Qed.

(** C56: the sub-vertices of a face are renumbered consecutively: the table holds every sub-vertex of the face exactly once in its first entries, all others are invalid; the
    local ids of the sub-faces' vertices point to their entries *)
Theorem C56_subgrid isHex scRecv svR sfSvL : (isHex = true -> 2 <= nFaVe) -> length scRecv = nSf -> Forall (fun r => length r = nFaVe) scRecv -> length svR = nFaSv ->
  length sfSvL = nSf -> Forall (fun r => length r = nFaVe) sfSvL -> length (nodup Nat.eq_dec (concat scRecv)) <= nFaSv ->
  exists t sfSvL', faSg nSf nFaVe nFaSv isHex scRecv svR sfSvL = Ok (table t, sfSvL') /\ NoDup t /\ (forall x, In x t <-> In x (concat scRecv)) /\
  forall sf sv, sf < nSf -> sv < nFaVe -> exists p,
    nth (if isHex then match sv with 0 => 1 | 1 => 0 | _ => sv end else sv) (nth sf sfSvL' []) None = Some p /\ nth_error t p = Some (nth sv (nth sf scRecv []) 0).
Proof.
  intros HX LR FR LV LS FS LN. unfold faSg.
  destruct (loopC (fun k (l : list (option nat)) => nth k l None) (fun k => k < nFaSv) (fun k => k) (fun k v => None) (fun l => length l = nFaSv) 0 nFaSv (fun sv svR => wr svR sv None) svR) as (s0 & E & L0 & V0); [lia| |exact LV|].
  { intros k l Hk Ll. rewrite wr_ok by lia. eexists. split; [reflexivity|]. split; [rewrite length_upd; auto|]. intros c Hc. destruct (Nat.eqb_spec c k) as [->|N]; [apply nth_upd_eq; lia|apply nth_upd_ne; auto]. }
  rewrite E. cbn [bind]. clear E. assert (E0 : s0 = table []).
  { apply (nth_ext _ _ None None); [unfold table; cbn; rewrite repeat_length; lia|]. intros k Hk. rewrite V0 by lia. cbn [Nat.leb andb]. rewrite (proj2 (Nat.ltb_lt k nFaSv)) by lia. unfold table. cbn [map app]. symmetry. apply nth_repeat. }
  subst s0. rewrite Forall_forall in FR.
  assert (RL : forall sf, sf < nSf -> length (nth sf scRecv []) = nFaVe) by (intros sf H; apply FR, nth_In; lia).
  assert (RI : forall sf sv, sf < nSf -> sv < nFaVe -> In (nth sv (nth sf scRecv []) 0) (concat scRecv)) by (intros sf sv H1 H2; apply in_concat; exists (nth sf scRecv []); split; apply nth_In; [lia|rewrite RL; auto]).
  set (perm := fun sv => if isHex then match sv with 0 => 1 | 1 => 0 | _ => sv end else sv).
  (* the table *)
  set (TB := fun t => NoDup t /\ incl t (concat scRecv)).
  assert (TL : forall t, TB t -> length t <= nFaSv). { intros t (N & I). eapply Nat.le_trans; [|exact LN]. apply NoDup_incl_length; auto. intros x Hx. apply nodup_In. auto. }
  set (OUT := fun sf sv (q : nat) t (o : list (list (option nat))) => exists p, nth q (nth sf o []) None = Some p /\ nth_error t p = Some (nth sv (nth sf scRecv []) 0)).
  set (SH := fun o : list (list (option nat)) => length o = nSf /\ Forall (fun r => length r = nFaVe) o).
  match goal with |- context [for_ 0 nSf ?bd (table [], sfSvL)] => destruct (for_ok (fun k s => exists t o, s = (table t, o) /\ TB t /\ SH o /\ forall sf sv, sf < k -> sv < nFaVe -> OUT sf sv (perm sv) t o) 0 nSf bd (table [], sfSvL)) as (s & E & t & o & -> & (T1 & T2) & S & O) end; [lia| | |].
  - exists [], sfSvL. split; [reflexivity|]. split; [split; [constructor|intros x []]|]. split; [split; auto|]. intros; lia.
  - intros sf s Hs (t & o & -> & TBt & SHo & O).
    match goal with |- context [for_ 0 nFaVe ?bd (table t, o)] => destruct (for_ok (fun k s => exists t' o', s = (table t', o') /\ TB t' /\ SH o' /\ (exists a, t' = t ++ a) /\ (forall f, f <> sf -> nth f o' [] = nth f o []) /\ forall sv, sv < k -> OUT sf sv sv t' o') 0 nFaVe bd (table t, o)) as (s & E & t' & o' & -> & TB' & SH' & (a & ET) & FO & OU) end; [lia| | |].
    + exists t, o. split; [reflexivity|]. split; [auto|]. split; [auto|]. split; [exists []; symmetry; apply app_nil_r|]. split; [reflexivity|]. intros; lia.
    + intros sv s Hv (t1 & o1 & -> & TB1 & (S1 & S2) & (a & ET) & FO & OU). rewrite (rd_ok scRecv sf []) by lia. cbn [bind]. rewrite (rd_ok _ sv 0) by (rewrite RL; lia). cbn [bind]. set (x := nth sv (nth sf scRecv []) 0).
      rewrite (rd_ok o1 sf []) by lia. cbn [bind]. assert (LO : length (nth sf o1 []) = nFaVe) by (rewrite Forall_forall in S2; apply S2, nth_In; lia). rewrite (rd_ok _ sv None) by lia. cbn [bind]. destruct TB1 as (N1 & I1).
      destruct (search_ok x t1 (nth sv (nth sf o1 []) None) N1 (TL t1 (conj N1 I1))) as (p & t2 & E & P & C).
      { destruct (in_dec Nat.eq_dec x t1) as [H|H]; [left; exact H|right]. assert (TBx : TB (t1 ++ [x])). { split; [apply NoDup_app_comm'; constructor; auto|]. intros y Hy. apply in_app_iff in Hy as [Hy|[<-|[]]]; [auto|apply RI; lia]. } apply TL in TBx. rewrite app_length in TBx. cbn in TBx. lia. }
      rewrite E. cbn [bind]. rewrite wr_ok by lia. cbn [bind]. rewrite wr_ok by lia. cbn [bind]. eexists. split; [reflexivity|]. exists t2, (upd o1 sf (upd (nth sf o1 []) sv (Some p))). split; [reflexivity|]. 
      assert (EX : exists b, t2 = t1 ++ b) by (destruct C as [->|(-> & _)]; [exists []; symmetry; apply app_nil_r|eauto]). destruct EX as (b & EX).
      split; [|split; [|split; [|split]]].
      * destruct C as [->|(-> & NI)]; [split; auto|]. split; [apply NoDup_app_comm'; constructor; auto|]. intros y Hy. apply in_app_iff in Hy as [Hy|[<-|[]]]; [auto|apply RI; lia].
      * split; [rewrite length_upd; auto|]. apply Forall_forall. intros r Hr. apply (In_nth _ _ []) in Hr as (f & Hf & <-). rewrite length_upd in Hf. destruct (Nat.eq_dec f sf) as [->|NE]; [rewrite nth_upd_eq by lia; rewrite length_upd; auto|rewrite nth_upd_ne by auto; rewrite Forall_forall in S2; apply S2, nth_In; auto].
      * exists (a ++ b). rewrite EX, ET, app_assoc. reflexivity.
      * intros f Nf. rewrite nth_upd_ne by auto. apply FO. auto.
      * intros v Hvv. unfold OUT. rewrite nth_upd_eq by lia. destruct (Nat.eq_dec v sv) as [->|NE]; [exists p; rewrite nth_upd_eq by lia; auto|]. rewrite nth_upd_ne by auto. destruct (OU v ltac:(lia)) as (q & Q1 & Q2). exists q. split; [exact Q1|]. rewrite EX. rewrite nth_error_app1; [exact Q2|]. apply nth_error_Some. congruence.
    + rewrite E. cbn [bind]. destruct SH' as (S1 & S2). assert (LO : length (nth sf o' []) = nFaVe) by (rewrite Forall_forall in S2; apply S2, nth_In; lia).
      assert (OLD : forall f sv q, f < sf -> OUT f sv q t o -> OUT f sv q t' o'). { intros f sv q Hf (p & P1 & P2). exists p. rewrite FO by lia. split; [exact P1|]. rewrite ET. rewrite nth_error_app1; [exact P2|]. apply nth_error_Some. congruence. }
      destruct isHex eqn:EH.
      * assert (H2 := HX eq_refl). rewrite (rd_ok o' sf []) by lia. cbn [bind]. rewrite !(rd_ok _ _ None) by lia. cbn [bind]. rewrite wr_ok by lia. cbn [bind]. rewrite wr_ok by (rewrite length_upd; lia). cbn [bind]. rewrite wr_ok by lia. cbn [bind].
        eexists. split; [reflexivity|]. eexists t', _. split; [reflexivity|]. split; [auto|]. split.
        -- split; [rewrite length_upd; auto|]. apply Forall_forall. intros r Hr. apply (In_nth _ _ []) in Hr as (f & Hf & <-). rewrite length_upd in Hf. destruct (Nat.eq_dec f sf) as [->|NE]; [rewrite nth_upd_eq by lia; rewrite !length_upd; auto|rewrite nth_upd_ne by auto; rewrite Forall_forall in S2; apply S2, nth_In; auto].
        -- intros f sv Hf Hv. destruct (Nat.eq_dec f sf) as [->|NE].
           ++ unfold OUT. rewrite nth_upd_eq by lia. unfold perm. destruct sv as [|[|sv]].
              ** rewrite nth_upd_eq by (rewrite length_upd; lia). apply (OU 0 ltac:(lia)).
              ** rewrite nth_upd_ne by lia. rewrite nth_upd_eq by lia. apply (OU 1 ltac:(lia)).
              ** rewrite !nth_upd_ne by lia. apply (OU (S (S sv)) ltac:(lia)).
           ++ unfold OUT. rewrite nth_upd_ne by auto. apply OLD; [lia|]. apply O; [lia|auto].
      * eexists. split; [reflexivity|]. exists t', o'. split; [reflexivity|]. split; [auto|]. split; [split; auto|]. intros f sv Hf Hv. destruct (Nat.eq_dec f sf) as [->|NE]; [apply OU; auto|]. apply OLD; [lia|]. apply O; [lia|auto].
  - exists t, o. split; [exact E|]. split; [auto|]. split.
    + intros x. split; [apply T2|]. intros Hx. apply in_concat in Hx as (r & Hr & Hx). apply (In_nth _ _ []) in Hr as (sf & Hsf & <-). apply (In_nth _ _ 0) in Hx as (sv & Hsv & <-). rewrite RL in Hsv by lia. destruct (O sf sv ltac:(lia) Hsv) as (p & _ & P). eapply nth_error_In; eauto.
    + exact O.
Qed.
End FaSg.

Print Assumptions C56_subgrid.

(** face of a tetrahedral element with four sub-faces *)
Example C56_ex : faSg 4 3 6 false [[9; 4; 7]; [4; 3; 5]; [7; 4; 5]; [7; 5; 1]] (repeat (Some 99) 6) (repeat (repeat None 3) 4) =
  Ok (map Some [9; 4; 7; 3; 5; 1], [[Some 0; Some 1; Some 2]; [Some 1; Some 3; Some 4]; [Some 2; Some 1; Some 4]; [Some 2; Some 4; Some 5]]).
Proof. reflexivity. Qed.
