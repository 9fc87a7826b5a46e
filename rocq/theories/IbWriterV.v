(** Output of internal boundaries: proofs. *)
From Coq Require Import List Arith Bool ZArith Lia.
From Verif Require Import Util Comm SubGrid SubGridSpec SubGridW IbWriter IbWriterSpec.
Import ListNotations.
Open Scope nat_scope.

(** ** Lists of results *)
Lemma mapM_nth {A B} (f : A -> res B) l : (forall a, In a l -> exists b, f a = Ok b) -> exists r, mapM f l = Ok r /\ length r = length l /\ forall i a, nth_error l i = Some a -> exists b, nth_error r i = Some b /\ f a = Ok b.
Proof.
  induction l as [|a l IH]; intros H; [exists []; repeat split; auto; intros [|i] a E; discriminate|]. destruct (H a (or_introl eq_refl)) as (b & E). destruct IH as (r & E' & L & N); [intros; apply H; now right|].
  exists (b :: r). cbn [mapM]. rewrite E. cbn [bind]. rewrite E'. split; [reflexivity|]. split; [cbn; auto|]. intros [|i] x Hx; cbn [nth_error] in *; [injection Hx as <-; eauto|auto].
Qed.
Lemma mapM_seq {B} (f : nat -> res B) n : (forall i, i < n -> exists b, f i = Ok b) -> exists r, mapM f (seq 0 n) = Ok r /\ length r = n /\ forall i, i < n -> exists b, nth_error r i = Some b /\ f i = Ok b.
Proof.
  intros H. destruct (mapM_nth f (seq 0 n)) as (r & E & L & N); [intros a Ha; apply in_seq in Ha; apply H; lia|]. exists r. split; [exact E|]. rewrite seq_length in L. split; [exact L|]. intros i Hi. apply N. rewrite (nth_error_nth' _ 0) by (rewrite seq_length; auto). rewrite seq_nth by auto. reflexivity.
Qed.
Lemma rd2_some {A} (l : list (list A)) i j row x : nth_error l i = Some row -> nth_error row j = Some x -> rd2 l i j = Ok x.
Proof. intros E E'. unfold rd2. rewrite (rd_some _ _ _ E). cbn [bind]. apply rd_some. auto. Qed.
Lemma nth_ex {A} (l : list A) i : i < length l -> exists x, nth_error l i = Some x.
Proof. intros H. destruct (nth_error l i) eqn:E; eauto. apply nth_error_None in E. lia. Qed.

(** rows of equal length, one after the other *)
Lemma concat_len {A} (l : list (list A)) k : (forall r, In r l -> length r = k) -> length (concat l) = length l * k.
Proof. induction l as [|a l IH]; intros H; [reflexivity|]. cbn [concat length]. rewrite app_length, (H a) by (left; auto). rewrite IH by (intros; apply H; right; auto). lia. Qed.
Lemma concat_nth {A} (l : list (list A)) k : (forall r, In r l -> length r = k) -> forall i j row, nth_error l i = Some row -> j < k -> nth_error (concat l) (i * k + j) = nth_error row j.
Proof.
  induction l as [|a l IH]; intros H [|i] j row E Hj; cbn [nth_error] in E; try discriminate; cbn [concat].
  - injection E as ->. rewrite nth_error_app1; [reflexivity|]. rewrite (H row) by (left; auto). lia.
  - rewrite nth_error_app2 by (rewrite (H a) by (left; auto); nia). rewrite (H a) by (left; auto). replace (S i * k + j - k) with (i * k + j) by nia. apply IH; auto. intros; apply H; right; auto.
Qed.
Lemma nth_skip {A} (l : list A) : forall off i, nth_error (skipn off l) i = nth_error l (off + i).
Proof. induction l as [|a l IH]; intros [|off] i; cbn; auto. destruct i; reflexivity. Qed.
Lemma nth_first {A} (l : list A) : forall n i, i < n -> nth_error (firstn n l) i = nth_error l i.
Proof. induction l as [|a l IH]; intros [|n] [|i] H; cbn; auto; try lia. apply IH. lia. Qed.
Lemma slice_ok {A} off n (l : list A) : off + n <= length l -> exists s, slice off n l = Ok s /\ length s = n /\ forall i, i < n -> nth_error s i = nth_error l (off + i).
Proof.
  intros H. unfold slice. destruct (Nat.leb_spec (off + n) (length l)); [|lia]. eexists. split; [reflexivity|]. split; [rewrite firstn_length, skipn_length; lia|]. intros i Hi. rewrite nth_first by auto. apply nth_skip.
Qed.

(** ** The loops of [copy] *)
Fixpoint foldR {A S} (f : A -> S -> res S) (l : list A) (s : S) : res S := match l with [] => Ok s | a :: l => s <- f a s ;; foldR f l s end.
Lemma for_fold {S} (f : nat -> S -> res S) : forall n lo s, for_n n lo f s = foldR f (seq lo n) s.
Proof. induction n as [|n IH]; intros lo s; [reflexivity|]. cbn [for_n seq foldR]. destruct (f lo s); cbn [bind]; auto. Qed.
Lemma fold_app {A S} (f : A -> S -> res S) l m : forall s, foldR f (l ++ m) s = bind (foldR f l s) (foldR f m).
Proof. induction l as [|a l IH]; intros s; [reflexivity|]. cbn [app foldR]. destruct (f a s); cbn [bind]; auto. Qed.
Lemma fold_map {A B S} (f : B -> S -> res S) (g : A -> B) l : forall s, foldR f (map g l) s = foldR (fun a => f (g a)) l s.
Proof. induction l as [|a l IH]; intros s; [reflexivity|]. cbn [map foldR]. destruct (f (g a) s); cbn [bind]; auto. Qed.
Lemma fold_nest {A B S} (f : A -> B -> S -> res S) (m : list B) l : forall s, foldR (fun a => foldR (f a) m) l s = foldR (fun p => f (fst p) (snd p)) (list_prod l m) s.
Proof.
  induction l as [|a l IH]; intros s; [reflexivity|]. cbn [foldR list_prod]. rewrite fold_app, fold_map. cbn [fst snd]. destruct (foldR (f a) m s); cbn [bind]; auto.
Qed.
Lemma fold_ext {A S} (f g : A -> S -> res S) l : (forall a s, In a l -> f a s = g a s) -> forall s, foldR f l s = foldR g l s.
Proof. induction l as [|a l IH]; intros H s; [reflexivity|]. cbn [foldR]. rewrite H by (left; auto). destruct (g a s); cbn [bind]; auto. apply IH. intros; apply H; right; auto. Qed.
(** writes to distinct entries *)
Lemma writes {A V} (idx : A -> nat) (src : A -> nat) (data : list V) : forall l buf, NoDup l -> (forall a b, In a l -> In b l -> idx a = idx b -> a = b) -> (forall a, In a l -> idx a < length buf /\ src a < length data) ->
  exists buf', foldR (fun a buf => x <- rd data (src a) ;; wr buf (idx a) x) l buf = Ok buf' /\ length buf' = length buf /\ (forall a, In a l -> nth_error buf' (idx a) = nth_error data (src a)) /\ forall i, (forall a, In a l -> idx a <> i) -> nth_error buf' i = nth_error buf i.
Proof.
  induction l as [|a l IH]; intros buf ND INJ H.
  - exists buf. repeat split; auto. intros a [].
  - inversion ND as [|? ? NI ND']; subst. destruct (H a (or_introl eq_refl)) as (Hi & Hs). destruct (nth_ex _ _ Hs) as (x & E). cbn [foldR]. rewrite (rd_some _ _ _ E). cbn [bind]. rewrite wr_ok by auto. cbn [bind].
    destruct (IH (upd buf (idx a) x) ND') as (buf' & EF & L & N1 & N2); [intros; apply INJ; try right; auto|intros b Hb; rewrite length_upd; apply H; right; auto|]. rewrite length_upd in L. exists buf'. split; [exact EF|]. split; [exact L|]. split.
    + intros b [<-|Hb]; [|auto]. rewrite N2; [rewrite nth_error_upd_eq by auto; auto|]. intros c Hc Q. apply INJ in Q; [|right; auto|left; auto]. subst. auto.
    + intros i Hn. rewrite N2 by (intros c Hc; apply Hn; right; auto). apply nth_error_upd_ne. apply Hn. left; auto.
Qed.
Lemma radix m a r a' r' : r < m -> r' < m -> a * m + r = a' * m + r' -> a = a' /\ r = r'.
Proof. intros H H' E. assert (a = a') by (destruct (Nat.lt_trichotomy a a') as [L|[L|L]]; auto; exfalso; nia). subst. lia. Qed.
Lemma nodup_prod {A B} (l : list A) (m : list B) : NoDup l -> NoDup m -> NoDup (list_prod l m).
Proof.
  induction l as [|a l IH]; intros H K; [constructor|]. inversion H as [|? ? NI ND]; subst. cbn [list_prod]. assert (X : forall (u v : list (A * B)), NoDup u -> NoDup v -> (forall x, In x u -> ~ In x v) -> NoDup (u ++ v)).
  { induction u as [|x u IHu]; intros v U V D; [exact V|]. inversion U; subst. cbn [app]. constructor; [intros Q; apply in_app_or in Q; destruct Q as [Q|Q]; auto; apply (D x); auto; left; auto|]. apply IHu; auto. intros y Hy. apply D. right; auto. }
  apply X; auto; [apply FinFun.Injective_map_NoDup; auto; intros x y E; congruence|]. intros (x & y) Hx Hy. apply in_map_iff in Hx. destruct Hx as (z & E & _). apply in_prod_iff in Hy. injection E as <- <-. tauto.
Qed.
Lemma copy_ok {T} nSfs first size nQts stride (data buf : list T) : 0 < nQts -> nQts <= stride -> (first + size) * stride * nSfs <= length data -> nQts * size * nSfs <= length buf ->
  exists buf', copy T nSfs first size nQts stride data buf = Ok buf' /\ length buf' = length buf /\
  forall i sf qt, i < size -> sf < nSfs -> qt < nQts -> nth_error buf' (qt * size * nSfs + (i * nSfs + sf)) = nth_error data (((first + i) * nSfs + sf) * stride + qt).
Proof.
  intros H0 HQ HD HB. unfold copy. destruct (Nat.ltb_spec 0 nQts); [|lia]. destruct (Nat.leb_spec 1 stride); [|lia]. cbn [check bind].
  set (idx := fun p : nat * (nat * nat) => snd (snd p) * size * nSfs + (fst p - first) * nSfs + fst (snd p)). set (src := fun p : nat * (nat * nat) => fst p * stride * nSfs + fst (snd p) * stride + snd (snd p)).
  set (L := list_prod (seq first size) (list_prod (seq 0 nSfs) (seq 0 nQts))).
  assert (IN : forall p, In p L <-> (first <= fst p < first + size /\ fst (snd p) < nSfs /\ snd (snd p) < nQts)) by (intros (a & b & c); unfold L; rewrite !in_prod_iff, !in_seq; cbn [fst snd]; lia).
  assert (B1 : forall p, In p L -> (fst p - first) * nSfs + fst (snd p) < size * nSfs) by (intros (a & b & c) Hp; apply IN in Hp; cbn [fst snd] in *; nia).
  destruct (writes idx src data L buf) as (buf' & E & LB & N & _).
  - unfold L. repeat apply nodup_prod; apply seq_NoDup.
  - intros p q Hp Hq Q. assert (Bp := B1 p Hp). assert (Bq := B1 q Hq). apply IN in Hp. apply IN in Hq. destruct p as (a & b & c), q as (a' & b' & c'). unfold idx in Q. cbn [fst snd] in *. rewrite <- !Nat.mul_assoc, <- !Nat.add_assoc in Q. apply radix in Q; auto. destruct Q as (-> & Q). apply radix in Q; try lia. destruct Q as (Q & ->). do 2 f_equal. lia.
  - intros p Hp. assert (Bp := B1 p Hp). apply IN in Hp. destruct p as (a & b & c). unfold idx, src. cbn [fst snd] in *. split; [nia|]. assert (a * stride * nSfs + b * stride + c < (a + 1) * stride * nSfs) by nia. assert ((a + 1) * stride * nSfs <= (first + size) * stride * nSfs) by (apply Nat.mul_le_mono_r, Nat.mul_le_mono_r; lia). lia.
  - exists buf'. split; [|split; [exact LB|]].
    + unfold for_. rewrite for_fold. replace (first + size - first) with size by lia. rewrite <- E. unfold L. rewrite <- (fold_nest (fun bf q buf => x <- rd data (src (bf, q)) ;; wr buf (idx (bf, q)) x)). apply fold_ext. intros bf s _.
      rewrite for_fold, !Nat.sub_0_r. rewrite <- (fold_nest (fun sf qt buf => x <- rd data (src (bf, (sf, qt))) ;; wr buf (idx (bf, (sf, qt))) x)). apply fold_ext. intros sf s0 _. rewrite for_fold. reflexivity.
    + intros i sf qt Hi Hs Hq. specialize (N (first + i, (sf, qt))). unfold idx, src in N. cbn [fst snd] in N. replace (first + i - first) with i in N by lia. rewrite Nat.add_assoc. rewrite N by (apply IN; cbn [fst snd]; lia). f_equal. nia.
Qed.

(** ** Points and cells *)
Section Init.
  Variable (T : Type) (zero : T) (phy : list (list T) -> list T -> res (list T)).
  Lemma veCrds_ok nDis I el ids : nth_error (elVe T I) el = Some ids -> (forall v, In v ids -> exists crd, nth_error (crdVe T I) v = Some crd /\ nDis <= length crd) -> exists ves, veCrds T nDis I el = Ok ves /\ shapeOf T nDis I el ves.
  Proof.
    intros E V. unfold veCrds. rewrite (rd_some _ _ _ E). cbn [bind].
    assert (R : forall di, di < nDis -> exists row, mapM (fun ve => rd2 (crdVe T I) ve di) ids = Ok row /\ length row = length ids /\ forall i v, nth_error ids i = Some v -> exists crd x, nth_error (crdVe T I) v = Some crd /\ nth_error crd di = Some x /\ nth_error row i = Some x).
    { intros di Hd. assert (X : forall v, In v ids -> exists crd x, nth_error (crdVe T I) v = Some crd /\ nth_error crd di = Some x) by (intros v Hv; destruct (V v Hv) as (crd & C & L); destruct (nth_ex crd di ltac:(lia)) as (x & Ex); eauto).
      destruct (mapM_nth (fun ve => rd2 (crdVe T I) ve di) ids) as (row & ER & L & N); [intros v Hv; destruct (X v Hv) as (crd & x & A & B); exists x; eapply rd2_some; eauto|]. exists row. split; [exact ER|]. split; [exact L|].
      intros i v Hv. destruct (X v (nth_error_In _ _ Hv)) as (crd & x & A & B). exists crd, x. split; [exact A|]. split; [exact B|]. destruct (N i v Hv) as (b & C & D). rewrite (rd2_some _ _ _ _ _ A B) in D. injection D as <-. exact C. }
    destruct (mapM_seq (fun di => mapM (fun ve => rd2 (crdVe T I) ve di) ids) nDis) as (ves & EV & L & N); [intros di Hd; destruct (R di Hd) as (row & A & _); eauto|]. exists ves. split; [exact EV|]. exists ids. split; [exact E|]. split; [exact L|].
    intros di Hd. destruct (N di Hd) as (row & A & B). destruct (R di Hd) as (row' & A' & B' & C'). rewrite A' in B. injection B as ->. exists row. auto.
  Qed.

  Lemma init_ok hex nDis nFas nSfs nFaVes nFaSvs nScs nBf scSv o_l o_r I :
    (hex = true -> 2 <= nFaVes) -> length o_l = nFas -> length o_r = nFas -> (forall rows, In rows o_l -> length rows = nSfs /\ forall row, In row rows -> length row = nFaVes) ->
    (forall fa sf, fa < nFas -> sf < nSfs -> exists row, nth_error scSv (nScs + fa * nSfs + sf) = Some row /\ nFaVes <= length row) ->
    (forall fa, fa < nFas -> ~ In inv (faceIds nSfs nFaVes nScs scSv fa) /\ length (firsts (faceIds nSfs nFaVes nScs scSv fa)) = nFaSvs) ->
    (forall bf, bf < nBf -> ready T phy nDis nFas nSfs nFaVes nScs scSv I bf) ->
    exists grid, init T zero phy hex nDis nFas nSfs nFaVes nFaSvs nScs nBf scSv o_l o_r I = Ok grid /\ length grid = nBf /\ forall bf, bf < nBf -> exists p c el fa, nth_error grid bf = Some (p, c) /\ leftOf T I bf el fa /\ length p = nFaSvs /\ length c = nSfs /\
      forall sf, sf < nSfs -> exists row, nth_error c sf = Some row /\ length row = nFaVes /\ forall ve, ve < nFaVes -> exists k x, nth_error row ve = Some (bf * nFaSvs + k) /\ k < nFaSvs /\ nth_error p k = Some x /\
        position T zero phy nDis I bf (at2 scSv (nScs + fa * nSfs + sf) (exch hex ve)) x.
  Proof.
    intros H2 LL LR W SH V RD. unfold init. destruct (faSg_ok hex nFas nSfs nFaVes nFaSvs nScs scSv o_l o_r H2 LL LR W SH) as (l & r & E & _ & _ & P); [intros fa Hf; destruct (V fa Hf); split; auto; lia|]. rewrite E. cbn [bind fst snd].
    enough (X : forall bf, bf < nBf -> exists p c el fa, initBf T zero phy nDis nSfs nFaVes nFaSvs I l r bf = Ok (p, c) /\ leftOf T I bf el fa /\ length p = nFaSvs /\ length c = nSfs /\
      forall sf, sf < nSfs -> exists row, nth_error c sf = Some row /\ length row = nFaVes /\ forall ve, ve < nFaVes -> exists k x, nth_error row ve = Some (bf * nFaSvs + k) /\ k < nFaSvs /\ nth_error p k = Some x /\
        position T zero phy nDis I bf (at2 scSv (nScs + fa * nSfs + sf) (exch hex ve)) x).
    { destruct (mapM_seq (initBf T zero phy nDis nSfs nFaVes nFaSvs I l r) nBf) as (grid & EG & L & N); [intros bf Hb; destruct (X bf Hb) as (p & c & ? & ? & ? & _); eauto|]. exists grid. split; [exact EG|]. split; [exact L|].
      intros bf Hb. destruct (N bf Hb) as (b & A & B). destruct (X bf Hb) as (p & c & el & fa & C & D). rewrite C in B. injection B as <-. exists p, c, el, fa. auto. }
    intros bf Hb. destruct (RD bf Hb) as (el & fa & ids & LO & Hf & EI & VI & PO). destruct (P fa Hf) as (P1 & rows & P2 & P3 & P4). cbv zeta in P4. destruct (V fa Hf) as (V1 & V2). rewrite V2, Nat.sub_diag in P1. cbn [repeat] in P1. rewrite app_nil_r in P1.
    set (F := faceIds nSfs nFaVes nScs scSv fa) in *. destruct (veCrds_ok nDis I el ids EI VI) as (ves & EV & SV).
    assert (LO' := LO). destruct LO' as (bes & be & fas & A1 & A2 & A3 & A4 & A5). unfold initBf. rewrite (rd2_some _ _ _ _ _ A1 A2). cbn [bind]. rewrite (rd_some _ _ _ A3). cbn [bind]. rewrite (rd2_some _ _ _ _ _ A4 A5). cbn [bind]. rewrite EV. cbn [bind].
    destruct (mapM_seq (fun sv => id <- rd2 r fa sv ;; xi <- rd (crdSv T I) (Z.to_nat id) ;; x <- phy ves xi ;; Ok (pad3 T zero x)) nFaSvs) as (p & EP & LP & NP).
    { intros sv Hs. destruct (nth_ex (firsts F) sv ltac:(lia)) as (v & Ev). assert (IV : In v F) by (apply firsts_in; eapply nth_error_In; eauto). destruct (PO ves v SV IV) as (_ & xi & x & X1 & X2). rewrite (rd2_some _ _ _ _ _ P1 Ev). cbn [bind]. rewrite (rd_some _ _ _ X1). cbn [bind]. rewrite X2. cbn [bind]. eauto. }
    rewrite EP. cbn [bind]. rewrite (rd_some _ _ _ P2). cbn [bind].
    assert (CR : forall sf, sf < nSfs -> exists row, mapM (fun ve => c <- rd2 rows sf ve ;; Ok (bf * nFaSvs + c)) (seq 0 nFaVes) = Ok row /\ length row = nFaVes /\ forall ve, ve < nFaVes -> exists k, nth_error row ve = Some (bf * nFaSvs + k) /\ nth_error (firsts F) k = Some (at2 scSv (nScs + fa * nSfs + sf) (exch hex ve))).
    { intros sf Hs. destruct (P4 sf Hs) as (row & R1 & R2 & R3). destruct (mapM_seq (fun ve => c <- rd2 rows sf ve ;; Ok (bf * nFaSvs + c)) nFaVes) as (row' & ER & LR' & NR); [intros ve Hv; destruct (R3 ve Hv) as (k & K1 & _); rewrite (rd2_some _ _ _ _ _ R1 K1); cbn [bind]; eauto|]. exists row'. split; [exact ER|]. split; [exact LR'|].
      intros ve Hv. destruct (R3 ve Hv) as (k & K1 & K2). exists k. split; [|exact K2]. destruct (NR ve Hv) as (b & B1 & B2). rewrite (rd2_some _ _ _ _ _ R1 K1) in B2. cbn [bind] in B2. injection B2 as <-. exact B1. }
    destruct (mapM_seq (fun sf => mapM (fun ve => c <- rd2 rows sf ve ;; Ok (bf * nFaSvs + c)) (seq 0 nFaVes)) nSfs) as (c & EC & LC & NC); [intros sf Hs; destruct (CR sf Hs) as (row & ? & _); eauto|]. rewrite EC. cbn [bind].
    exists p, c, el, fa. split; [reflexivity|]. split; [exact LO|]. split; [exact LP|]. split; [exact LC|]. intros sf Hs. destruct (NC sf Hs) as (row & N1 & N2). destruct (CR sf Hs) as (row' & R1 & R2 & R3). rewrite R1 in N2. injection N2 as ->. exists row. split; [exact N1|]. split; [exact R2|].
    intros ve Hv. destruct (R3 ve Hv) as (k & K1 & K2). assert (Hk : k < nFaSvs) by (rewrite <- V2; apply nth_error_Some; congruence). destruct (NP k Hk) as (x & X1 & X2). exists k, x. split; [exact K1|]. split; [exact Hk|]. split; [exact X1|].
    set (v := at2 scSv (nScs + fa * nSfs + sf) (exch hex ve)) in *. assert (IV : In v F) by (apply firsts_in; eapply nth_error_In; eauto). destruct (PO ves v SV IV) as (Pv & xi & y & Y1 & Y2). rewrite (rd2_some _ _ _ _ _ P1 K2) in X2. cbn [bind] in X2. rewrite (rd_some _ _ _ Y1) in X2. cbn [bind] in X2. rewrite Y2 in X2. cbn [bind] in X2. injection X2 as <-.
    exists el, fa, ves, xi, y. split; [exact LO|]. split; [exact SV|]. split; [exact Pv|]. split; [exact Y1|]. split; [exact Y2|]. reflexivity.
  Qed.
End Init.
