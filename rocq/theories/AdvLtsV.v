(** Local and neighbouring steps of the advection solver: values of the results. *)
From Coq Require Import Ring.
From Verif Require Import Util MeshConn MatMul Props_Mat Sparse Lts Ader AderSpec AderV AderCk Props_Ader AdvK AdvKSpec AdvKV AderElSpec AderElV AderLtsSpec AdvLtsSpec.
Local Open Scope nat_scope.

Section El.
Context {T : Type}.
Variables (A : alg T) (cf : conf) (S : @advS T) (n : nat).
Local Notation zero := (aZero A).
Local Notation one := (aOne A).
Local Notation add := (aAdd A).
Local Notation sub := (aSub A).
Local Notation mul := (aMul A).
Local Notation div := (aDiv A).
Local Notation ofN := (aOfN A).
Local Notation isz := (aIsz A).
Add Ring TRL : (aRT A).
Local Notation nDi := (nDis (cEl cf)).
Local Notation nMd := (nModes (cEl cf) (cSp cf)).
Local Notation nMdFa := (nModesFa (cEl cf) (cSp cf)).
Local Notation nFa := (nElFas (cEl cf)).
Local Notation nCr := (cCrs cf).
Local Notation rep1 := (rep1 A cf).
Local Notation at_ := (at_ cf).
Local Notation predI := (predI A cf S).
Local Notation ownA := (ownA A cf S).
Local Notation neighT := (neighT A cf S).
Local Opaque nModes nModesCk nQtsE nQtsM nDis nModesFa nElFas.

(** what a send buffer holds: [t0], [t1], [t2]: data of the time buffers *)
Definition sentA (r : comparison) (firstTs : bool) (t0 t1 t2 : nat -> nat -> T) (old new : list (list T)) : Prop :=
  bufA cf r new /\
  match r with
  | Eq => rep1 nMd (nth 0 new []) t0
  | Lt => if firstTs then new = old else rep1 nMd (nth 0 new []) t1
  | Gt => rep1 nMd (nth 0 new []) t2 /\ rep1 nMd (nth 1 new []) (fun z y => sub (t0 z y) (t2 z y))
  end.
(** what an element needs for its local step, see localPre of AderElSpec *)
Definition localPreA fl (chars : list N) (el : nat) (s : @advL T) (rel : nat -> comparison) (less greater : bool) (q g1 : nat -> nat -> T) : Prop :=
  rep1 nMd (nth el (aQ s) []) q /\ length (nth el (a0 s) []) = nMd * nCr /\
  (if less then rep1 nMd (nth el (a1 s) []) g1 else True) /\ (if greater then length (nth el (a2 s) []) = nMd * nCr else True) /\
  exists c, nth_error chars el = Some c /\ elFlags fl c less greater /\
  (forall fa b, fa < nFa -> nth_error (aS s) (at_ el fa) = Some (Some b) ->
     says fl c fa (rel fa) /\ bufA cf (rel fa) b /\ (rel fa = Lt -> less = true) /\ (rel fa = Gt -> greater = true)).
(** the result of the local step *)
Definition localPostA (firstTs : bool) (dt hdt : T) (el : nat) (s s' : @advL T) (rel : nat -> comparison) (less greater : bool) (q g1 : nat -> nat -> T) : Prop :=
  let t0 := fun z => predI el dt (q z) in
  let t1 := fun z y => add (if firstTs then zero else g1 z y) (t0 z y) in
  let t2 := fun z => predI el hdt (q z) in
  rep1 nMd (nth el (aQ s') []) (fun z y => add (q z y) (ownA el (predI el dt (q z)) y)) /\
  rep1 nMd (nth el (a0 s') []) t0 /\
  (if less then rep1 nMd (nth el (a1 s') []) t1 else nth el (a1 s') [] = nth el (a1 s) []) /\
  (if greater then rep1 nMd (nth el (a2 s') []) t2 else nth el (a2 s') [] = nth el (a2 s) []) /\
  (forall fa, fa < nFa -> match nth_error (aS s) (at_ el fa) with
     | Some (Some b) => exists b', nth_error (aS s') (at_ el fa) = Some (Some b') /\ sentA (rel fa) firstTs t0 t1 t2 b b'
     | o => nth_error (aS s') (at_ el fa) = o end).
Definition sameA (s s' : @advL T) (el : nat) : Prop :=
  nth el (aQ s') [] = nth el (aQ s) [] /\ nth el (a0 s') [] = nth el (a0 s) [] /\ nth el (a1 s') [] = nth el (a1 s) [] /\ nth el (a2 s') [] = nth el (a2 s) [] /\
  forall fa, fa < nFa -> nth_error (aS s') (at_ el fa) = nth_error (aS s) (at_ el fa).

Lemma rep1_len' m l f : rep1 m l f -> length l = m * nCr.
Proof. apply rep1_len. Qed.

Lemma sendA_ok fl c firstTs t0 t1 t2 f0 f1 f2 fa b r : says fl c fa r -> bufA cf r b -> rep1 nMd t0 f0 -> (r = Lt -> rep1 nMd t1 f1) -> (r = Gt -> rep1 nMd t2 f2) ->
  exists b', sendA sub cf fl c firstTs t0 t1 t2 fa (Some b) = Ok (Some b') /\ sentA r firstTs f0 f1 f2 b b'.
Proof.
  intros (G1 & G2 & G3 & He & Hl & Hg) Bo R0 R1 R2. unfold sendA. rewrite (rd_ok (fAdEq fl) fa 0%N G1). cbn [bind]. rewrite (rd_ok (fAdLt fl) fa 0%N G2). cbn [bind]. rewrite He, Hl. unfold bufA in Bo.
  destruct r.
  - rewrite (rd_sized _ _ _ 0 Bo) by lia. cbn [bind]. destruct (copy1 A cf t0 (nth 0 b []) f0 ltac:(apply Bo; lia) R0) as (o & E & R). rewrite E. cbn [bind].
    rewrite (wr_sized _ _ _ 0 _ Bo) by lia. cbn [bind]. eexists. split; [reflexivity|]. split; [apply sized_upd; [exact Bo|exact (rep1_len _ _ _ _ _ R)]|]. rewrite nth_upd_eq by (destruct Bo; lia). exact R.
  - destruct firstTs; cbn [bind]; [eexists; split; [reflexivity|]; split; [exact Bo|reflexivity]|].
    rewrite (rd_sized _ _ _ 0 Bo) by lia. cbn [bind]. destruct (copy1 A cf t1 (nth 0 b []) f1 ltac:(apply Bo; lia) (R1 eq_refl)) as (o & E & R). rewrite E. cbn [bind].
    rewrite (wr_sized _ _ _ 0 _ Bo) by lia. cbn [bind]. eexists. split; [reflexivity|]. split; [apply sized_upd; [exact Bo|exact (rep1_len _ _ _ _ _ R)]|]. rewrite nth_upd_eq by (destruct Bo; lia). exact R.
  - rewrite (rd_sized _ _ _ 0 Bo) by lia. cbn [bind]. destruct (copy1 A cf t2 (nth 0 b []) f2 ltac:(apply Bo; lia) (R2 eq_refl)) as (o & E & R). rewrite E. cbn [bind].
    rewrite (wr_sized _ _ _ 0 _ Bo) by lia. cbn [bind]. assert (Bo' : sized 2 (nMd * nCr) (upd b 0 o)) by (apply sized_upd; [exact Bo|exact (rep1_len _ _ _ _ _ R)]).
    rewrite (rd_sized _ _ _ 1 Bo') by lia. cbn [bind]. destruct (diff1 A cf t0 t2 (nth 1 (upd b 0 o) []) f0 f2 R0 (R2 eq_refl) ltac:(apply Bo'; lia)) as (p & Ep & Rp). rewrite Ep. cbn [bind].
    rewrite (wr_sized _ _ _ 1 _ Bo') by lia. cbn [bind]. eexists. split; [reflexivity|]. split; [apply sized_upd; [exact Bo'|exact (rep1_len _ _ _ _ _ Rp)]|]. split.
    + rewrite nth_upd_ne by lia. rewrite nth_upd_eq by (destruct Bo; lia). exact R.
    + rewrite nth_upd_eq by (destruct Bo'; lia). exact Rp.
Qed.

Lemma localA_ok fl chars firstTs dt hdt J el s rel less greater q g1 : goodA cf S n -> junkA cf J -> shapeA cf n s -> el < n -> localPreA fl chars el s rel less greater q g1 ->
  exists s', localA zero one add sub mul div ofN isz cf S fl chars firstTs dt hdt J el s = Ok s' /\ shapeA cf n s' /\
    (forall el', el' <> el -> sameA s s' el') /\ localPostA firstTs dt hdt el s s' rel less greater q g1.
Proof.
  intros (HT & GT & GV & GF & (NS & GS) & (NF & GFs)) (J1 & J2 & J3 & J4 & J5) (L1 & L2 & L3 & L4 & L5) Hel (HQ & Lt0 & B1 & B2 & c & Hc & (Fl & Fg) & HS).
  unfold localA. rewrite (rd_ok (gStar S) el []) by lia. cbn [bind]. rewrite (rd_ok (aQ s) el []) by lia. cbn [bind]. rewrite (rd_ok (a0 s) el []) by lia. cbn [bind].
  destruct (ckA_ok A cf (gStT S) dt (nth el (gStar S) []) (nth el (aQ s) []) (gjM J) (gjD J) (nth el (a0 s) []) q HT GT (GS el Hel) J1 J2 HQ Lt0) as (der & t0 & E & HD & R0).
  rewrite E. cbn [bind]. clear E. rewrite wr_ok by lia. cbn [bind]. rewrite (rd_some _ _ _ Hc). cbn [bind]. rewrite (rd_ok (a1 s) el []) by lia. cbn [bind]. rewrite Fl.
  change (rep1 nMd t0 (fun z => predI el dt (q z))) in R0.
  assert (X1 : exists t1, (if less then t1 <- (if firstTs then zeroE zero cf 1 (nth el (a1 s) []) else Ok (nth el (a1 s) []));; addA add cf t0 t1 else Ok (nth el (a1 s) [])) = Ok t1 /\
    if less then rep1 nMd t1 (fun z y => add (if firstTs then zero else g1 z y) (predI el dt (q z) y)) else t1 = nth el (a1 s) []).
  { destruct less; [|eauto]. destruct firstTs.
    - destruct (zero1 A cf _ (rep1_len _ _ _ _ _ B1)) as (u & Eu & Ru). rewrite Eu. cbn [bind]. destruct (add1 A cf t0 u _ _ R0 Ru) as (o & Eo & Ro). exists o. split; [exact Eo|exact Ro].
    - cbn [bind]. destruct (add1 A cf t0 _ _ _ R0 B1) as (o & Eo & Ro). exists o. split; [exact Eo|exact Ro]. }
  destruct X1 as (t1 & E & R1). rewrite E. cbn [bind]. clear E. rewrite wr_ok by lia. cbn [bind]. rewrite (rd_ok (a2 s) el []) by lia. cbn [bind]. rewrite Fg.
  assert (X2 : exists t2, (if greater then integrateA add mul div ofN cf hdt der (nth el (a2 s) []) else Ok (nth el (a2 s) [])) = Ok t2 /\
    if greater then rep1 nMd t2 (fun z => predI el hdt (q z)) else t2 = nth el (a2 s) []).
  { destruct greater; [|eauto]. destruct (integrateA_ok A cf (gStT S) (nth el (gStar S) []) q HT (GS el Hel) hdt (nth el (a2 s) []) der HD B2) as (o & Eo & Ro). exists o. split; [exact Eo|exact Ro]. }
  destruct X2 as (t2 & E & R2). rewrite E. cbn [bind]. clear E. rewrite wr_ok by lia. cbn [bind].
  set (f0 := fun z => predI el dt (q z)) in *. set (f1 := fun z y => add (if firstTs then zero else g1 z y) (f0 z y)). set (f2 := fun z => predI el hdt (q z)) in *.
  change (if less then rep1 nMd t1 f1 else t1 = nth el (a1 s) []) in R1.
  assert (XS : exists nS, for_ 0 nFa (fun fa sd => b <- rd sd (el * nFa + fa);; b <- sendA sub cf fl c firstTs t0 t1 t2 fa b;; wr sd (el * nFa + fa) b) (aS s) = Ok nS /\
    length nS = n * nFa /\ (forall i, (forall fa, fa < nFa -> i <> at_ el fa) -> nth_error nS i = nth_error (aS s) i) /\
    (forall fa, fa < nFa -> match nth_error (aS s) (at_ el fa) with
       | Some (Some b) => exists b', nth_error nS (at_ el fa) = Some (Some b') /\ sentA (rel fa) firstTs f0 f1 f2 b b'
       | o => nth_error nS (at_ el fa) = o end)).
  { loop (fun m nS => length nS = n * nFa /\ (forall i, (forall fa, fa < m -> i <> at_ el fa) -> nth_error nS i = nth_error (aS s) i) /\
      (forall fa, fa < m -> match nth_error (aS s) (at_ el fa) with
       | Some (Some b) => exists b', nth_error nS (at_ el fa) = Some (Some b') /\ sentA (rel fa) firstTs f0 f1 f2 b b'
       | o => nth_error nS (at_ el fa) = o end)) as nS E H.
    - lia.
    - split; [auto|]. split; [auto|]. intros; lia.
    - intros fa nS Hfa (Ln & Un & Vn). fold (at_ el fa).
      assert (Hat : at_ el fa < n * nFa) by (unfold AderElSpec.at_; nia).
      assert (Cur : nth_error nS (at_ el fa) = nth_error (aS s) (at_ el fa)) by (apply Un; intros; unfold AderElSpec.at_; lia).
      destruct (nth_error (aS s) (at_ el fa)) as [b|] eqn:Eb; [|apply nth_error_None in Eb; lia].
      rewrite (rd_some _ _ _ Cur). cbn [bind].
      assert (XB : exists b', sendA sub cf fl c firstTs t0 t1 t2 fa b = Ok b' /\
        match b with Some b => exists b2, b' = Some b2 /\ sentA (rel fa) firstTs f0 f1 f2 b b2 | None => b' = None end).
      { destruct b as [b|]; [|eexists; split; reflexivity]. destruct (HS fa b (proj2 Hfa) Eb) as (Sy & Bo & ReL & ReG).
        destruct (sendA_ok fl c firstTs t0 t1 t2 f0 f1 f2 fa b (rel fa) Sy Bo R0) as (b2 & E2 & V2).
        - intros X. now rewrite (ReL X) in R1.
        - intros X. now rewrite (ReG X) in R2.
        - exists (Some b2). split; [exact E2|]. exists b2. auto. }
      destruct XB as (b' & EB & PB). rewrite EB. cbn [bind]. rewrite wr_ok by lia. eexists. split; [reflexivity|]. split; [now rewrite length_upd|]. split.
      + intros i Hi. rewrite nth_error_upd_ne by (intros X; apply (Hi fa); auto). apply Un. intros; apply Hi; lia.
      + intros fb Hfb. destruct (Nat.eq_dec fb fa) as [->|N].
        * rewrite Eb. rewrite nth_error_upd_eq by lia. destruct b as [b|]; [|now rewrite PB]. destruct PB as (b2 & -> & P). exists b2. auto.
        * rewrite nth_error_upd_ne by (unfold AderElSpec.at_; lia). apply Vn. lia.
    - exists nS. split; [reflexivity|exact H]. }
  destruct XS as (nS & E & LS & US & VS). rewrite E. cbn [bind]. clear E.
  destruct (volA_ok A cf (gSt S) (nth el (gStar S) []) t0 (gjM J) (nth el (aQ s) []) f0 q GV (GS el Hel) J1 R0 HQ) as (qv & E & Rv). rewrite E. cbn [bind]. clear E.
  rewrite (rd_ok (gFs S) el []) by lia. cbn [bind].
  destruct (surfLocalA_ok A cf (gLN S) (gFT S) (nth el (gFs S) []) t0 (gjF0 J) (gjF1 J) qv f0 _ GF ltac:(rewrite (GFs el Hel); lia) J3 J4 R0 Rv) as (qs & E & Rs). rewrite E. cbn [bind]. clear E.
  rewrite wr_ok by lia. cbn [bind]. eexists. split; [reflexivity|].
  split; [|split; [|unfold localPostA; cbv zeta; cbn [aQ a0 a1 a2 aS]; split; [|split; [|split; [|split]]]]].
  - unfold shapeA. cbn [aQ a0 a1 a2 aS]. rewrite !length_upd. auto.
  - intros el' N. unfold sameA. cbn [aQ a0 a1 a2 aS]. rewrite !nth_upd_ne by auto. do 4 (split; [reflexivity|]). intros fa Hfa. apply US.
    intros fb Hfb. unfold AderElSpec.at_. nia.
  - rewrite nth_upd_eq by lia. eapply rep1_ext; [exact Rs|]. intros z y _ _. cbv beta. unfold AdvLtsSpec.ownA, fsOwn, starOf, f0. change (matK A cf (gSt S)) with (volK A cf (gSt S)). ring.
  - rewrite nth_upd_eq by lia. exact R0.
  - rewrite nth_upd_eq by lia. exact R1.
  - rewrite nth_upd_eq by lia. exact R2.
  - exact VS.
Qed.

Lemma sameA_refl s el : sameA s s el. Proof. unfold sameA; auto 10. Qed.
Lemma sameA_trans s1 s2 s3 el : sameA s1 s2 el -> sameA s2 s3 el -> sameA s1 s3 el.
Proof.
  intros (A1 & A2 & A3 & A4 & A5) (B1 & B2 & B3 & B4 & B5). unfold sameA. rewrite B1, B2, B3, B4, A1, A2, A3, A4. do 4 (split; [reflexivity|]). intros fa Hfa. now rewrite B5, A5.
Qed.
Lemma sameA_pre fl chars el s s' rel less greater q g1 : sameA s s' el -> localPreA fl chars el s rel less greater q g1 -> localPreA fl chars el s' rel less greater q g1.
Proof.
  intros (A1 & A2 & A3 & A4 & A5) (P1 & P2 & P3 & P4 & c & P5 & P6 & P7). unfold localPreA. rewrite A1, A2, A3, A4. do 4 (split; [assumption|]). exists c. split; [auto|]. split; [auto|].
  intros fa b Hfa. rewrite A5 by auto. now apply P7.
Qed.
Lemma sameA_post firstTs dt hdt el s1 s2 s3 s4 rel less greater q g1 : sameA s1 s2 el -> sameA s3 s4 el ->
  localPostA firstTs dt hdt el s2 s3 rel less greater q g1 -> localPostA firstTs dt hdt el s1 s4 rel less greater q g1.
Proof.
  intros (A1 & A2 & A3 & A4 & A5) (B1 & B2 & B3 & B4 & B5) (P1 & P2 & P3 & P4 & P5). unfold localPostA. cbv zeta. rewrite B1, B2, B3, B4.
  split; [exact P1|]. split; [exact P2|]. split; [now rewrite <- A3|]. split; [now rewrite <- A4|]. intros fa Hfa. specialize (P5 fa Hfa). rewrite A5 in P5 by auto. rewrite B5 by auto. exact P5.
Qed.

Lemma localsA_ok fl chars firstTs dt hdt J first m s (rel : nat -> nat -> comparison) (less greater : nat -> bool) (q g1 : nat -> nat -> nat -> T) :
  goodA cf S n -> junkA cf J -> shapeA cf n s -> first + m <= n ->
  (forall el, first <= el < first + m -> localPreA fl chars el s (rel el) (less el) (greater el) (q el) (g1 el)) ->
  exists s', localsA zero one add sub mul div ofN isz cf S fl chars firstTs dt hdt J first m s = Ok s' /\ shapeA cf n s' /\
    (forall el, ~ (first <= el < first + m) -> sameA s s' el) /\
    (forall el, first <= el < first + m -> localPostA firstTs dt hdt el s s' (rel el) (less el) (greater el) (q el) (g1 el)).
Proof.
  intros G HJ HS Hn HP. unfold localsA.
  loop (fun k s' => shapeA cf n s' /\ (forall el, ~ (first <= el < k) -> sameA s s' el) /\
    (forall el, first <= el < k -> localPostA firstTs dt hdt el s s' (rel el) (less el) (greater el) (q el) (g1 el))) as s' E H.
  - lia.
  - split; [auto|]. split; [intros; apply sameA_refl|]. intros; lia.
  - intros el s1 Hel (H1 & H2 & H3).
    destruct (localA_ok fl chars firstTs dt hdt J el s1 (rel el) (less el) (greater el) (q el) (g1 el) G HJ H1 ltac:(lia)) as (s2 & E & K1 & K2 & K3).
    { eapply sameA_pre; [|apply HP; auto]. apply H2. lia. }
    exists s2. split; [exact E|]. split; [exact K1|]. split.
    + intros el' N. eapply sameA_trans; [apply H2; lia|apply K2; lia].
    + intros el' Hel'. destruct (Nat.eq_dec el' el) as [->|N].
      * eapply sameA_post; [apply H2; lia| |exact K3]. apply sameA_refl.
      * eapply sameA_post; [| |apply H3; lia]; [apply sameA_refl|apply K2; auto].
  - exists s'. split; [reflexivity|exact H].
Qed.

(** *** Neighbouring step *)
(** the data [d] of the time buffers of element [ne], for the relation [r] of the element's time step to the one of [ne] *)
Definition bufDataA (t0s t1s t2s : list (list T)) (firstTs : bool) (ne : nat) (r : comparison) (d : nat -> nat -> T) : Prop :=
  ne < length t0s /\ ne < length t1s /\ ne < length t2s /\
  match r with
  | Eq => rep1 nMd (nth ne t0s []) d
  | Gt => rep1 nMd (nth ne t1s []) d
  | Lt => if firstTs then rep1 nMd (nth ne t2s []) d
          else exists a b, rep1 nMd (nth ne t0s []) a /\ rep1 nMd (nth ne t2s []) b /\ forall z y, d z y = sub (a z y) (b z y)
  end.
(** the data [d] and the matrix [id] which face [fa] of element [el] uses *)
Definition faceInA fl (M : advM) (c : N) firstTs t0s t1s t2s (recv : option (list (@abuf T))) (el fa id : nat) (d : nat -> nat -> T) : Prop :=
  exists fid ch r rv, at2 (mElFa M) el fa fid /\ nth_error (mCh M) fid = Some ch /\
  says fl c fa r /\ match recv with None => rv = None | Some l => nth_error l (at_ el fa) = Some rv end /\
    if has ch (mOut M) then r = Eq /\ rv = None /\ id = fa /\ bufDataA t0s t1s t2s firstTs el Eq d
    else exists v fId, at2 (mVId M) el fa (Some v) /\ at2 (mFId M) el fa fId /\ v * nFa + fId < nFluxN (cEl cf) /\ id = nFa + (v * nFa + fId) /\
      match rv with
      | None => exists ne, at2 (mElFaEl M) el fa (Some ne) /\ bufDataA t0s t1s t2s firstTs ne r d
      | Some b => bufA cf (CompOpp r) b /\ (exists x, at2 (mElFaEl M) el fa x) /\ rep1 nMd (nth (match r with Lt => if firstTs then 0 else 1 | _ => 0 end) b []) d
      end.

Lemma neighDataA_ok fl c firstTs t0s t1s t2s ne fa jn r d : length jn = nMd * nCr -> says fl c fa r -> bufDataA t0s t1s t2s firstTs ne r d ->
  exists t, neighDataA sub cf fl c firstTs t0s t1s t2s (Some ne) None fa jn = Ok t /\ rep1 nMd t d.
Proof.
  intros Lj (G1 & G2 & G3 & He & Hl & Hg) (N0 & N1 & N2 & B). unfold neighDataA. rewrite (rd_ok (fAdEq fl) fa 0%N G1). cbn [bind]. rewrite (rd_ok (fAdGt fl) fa 0%N G3). cbn [bind].
  rewrite (rd_ok (fAdLt fl) fa 0%N G2). cbn [bind]. rewrite He, Hg, Hl.
  destruct r.
  - rewrite (rd_ok t0s ne []) by auto. cbn [bind]. apply (copy1 A cf _ jn d Lj B).
  - cbn [check bind]. destruct firstTs.
    + rewrite (rd_ok t2s ne []) by auto. cbn [bind]. apply (copy1 A cf _ jn d Lj B).
    + rewrite (rd_ok t0s ne []) by auto. cbn [bind]. rewrite (rd_ok t2s ne []) by auto. cbn [bind]. destruct B as (a & b & Ra & Rb & D).
      destruct (diff1 A cf _ _ jn a b Ra Rb Lj) as (o & E & R). rewrite E. exists o. split; [reflexivity|]. eapply rep1_ext; [exact R|]. intros; symmetry; apply D.
  - rewrite (rd_ok t1s ne []) by auto. cbn [bind]. apply (copy1 A cf _ jn d Lj B).
Qed.

Lemma neighFaceA_ok fl M c firstTs t0s t1s t2s recv J el fa id d q f : goodA cf S n -> junkA cf J -> el < n -> fa < nFa ->
  faceInA fl M c firstTs t0s t1s t2s recv el fa id d -> rep1 nMd q f ->
  exists q', neighFaceA zero one add sub mul isz cf S fl M c firstTs t0s t1s t2s recv J el fa q = Ok q' /\
    rep1 nMd q' (fun z y => add (f z y) (surfS A cf (fsNeigh A cf S el fa) (nth id (gLN S) []) (nth fa (gFT S) []) (d z) y)).
Proof.
  intros (HT & GT & GV & GF & (NS & GS) & (NF & GFs)) (J1 & J2 & J3 & J4 & J5) Hel Hfa (fid & ch & r & rv & Hfid & Hch & Sy & Hrv & HD) Rq.
  unfold neighFaceA. rewrite (rd_at2 _ _ _ _ Hfid). cbn [bind]. rewrite (rd_some _ _ _ Hch). cbn [bind]. cbv zeta.
  assert (HR : (match recv with None => Ok None | Some l => rd l (el * nFa + fa) end) = Ok rv).
  { destruct recv as [l|]; [|now rewrite Hrv]. now apply rd_some. }
  rewrite HR. clear HR Hrv.
  assert (HF : rd2 (gFs S) el (nFa + fa) = Ok (fsNeigh A cf S el fa)).
  { apply rd_at2. unfold fsNeigh. apply at2_of; [lia|]. rewrite (GFs el Hel). lia. }
  assert (Goal_ : exists ne t vId fId, (if has ch (mOut M) then Ok (Some el) else rd2 (mElFaEl M) el fa) = Ok ne /\
      neighDataA sub cf fl c firstTs t0s t1s t2s ne rv fa (gjT J) = Ok t /\
      (if has ch (mOut M) then Ok None else rd2 (mVId M) el fa) = Ok vId /\ (if has ch (mOut M) then Ok 0 else rd2 (mFId M) el fa) = Ok fId /\
      id = neighId cf fa vId fId /\ (forall v, vId = Some v -> v * nFa + fId < nFluxN (cEl cf)) /\ rep1 nMd t d).
  { destruct (has ch (mOut M)).
    - destruct HD as (-> & -> & -> & B). destruct (neighDataA_ok fl c firstTs t0s t1s t2s el fa (gjT J) Eq d J5 Sy B) as (t & E & R).
      exists (Some el), t, None, 0. rewrite E. do 4 (split; [reflexivity|]). split; [reflexivity|]. split; [discriminate|exact R].
    - destruct HD as (v & fId & Hv & Hf & Hlt & Hid & B). rewrite (rd_at2 _ _ _ _ Hv), (rd_at2 _ _ _ _ Hf). destruct rv as [b|].
      + destruct B as (Bo & (x & Hx) & R). rewrite (rd_at2 _ _ _ _ Hx).
        assert (XB : exists t, neighDataA sub cf fl c firstTs t0s t1s t2s x (Some b) fa (gjT J) = Ok t /\ rep1 nMd t d).
        { unfold neighDataA. destruct Sy as (G1 & G2 & G3 & He & Hl & Hg). rewrite (rd_ok (fAdLt fl) fa 0%N G2). cbn [bind]. rewrite Hl. destruct Bo as (Lb & _).
          destruct r; cbn [CompOpp] in Lb; [| destruct firstTs |]; rewrite (rd_ok b _ []) by lia; cbn [bind]; apply (copy1 A cf _ (gjT J) d J5 R). }
        destruct XB as (t & Et & Rt). exists x, t, (Some v), fId. do 4 (split; [assumption || reflexivity|]). split; [exact Hid|]. split; [intros v' Ev; injection Ev as <-; exact Hlt|exact Rt].
      + destruct B as (ne & Hne & B). rewrite (rd_at2 _ _ _ _ Hne). destruct (neighDataA_ok fl c firstTs t0s t1s t2s ne fa (gjT J) r d J5 Sy B) as (t & E & R).
        exists (Some ne), t, (Some v), fId. do 4 (split; [assumption || reflexivity|]). split; [exact Hid|]. split; [intros v' Ev; injection Ev as <-; exact Hlt|exact R]. }
  destruct Goal_ as (ne & t & vId & fId & -> & E & -> & -> & Hid & Hlt & Rt). cbn [bind]. rewrite E. cbn [bind]. rewrite HF. cbn [bind]. rewrite Hid.
  apply (surfNeighA_ok A cf (gLN S) (gFT S) fa vId fId _ t _ _ q d f GF Hfa Hlt J3 J4 Rt Rq).
Qed.

Lemma neighElA_ok fl M chars firstTs t0s t1s t2s recv J el dofs c (id : nat -> nat) (d : nat -> nat -> nat -> T) (q : nat -> nat -> T) :
  goodA cf S n -> junkA cf J -> el < n -> length dofs = n ->
  nth_error chars el = Some c -> (forall fa, fa < nFa -> faceInA fl M c firstTs t0s t1s t2s recv el fa (id fa) (d fa)) -> rep1 nMd (nth el dofs []) q ->
  exists dofs', neighElA zero one add sub mul isz cf S fl M chars firstTs t0s t1s t2s recv J el dofs = Ok dofs' /\ length dofs' = n /\
    (forall el', el' <> el -> nth el' dofs' [] = nth el' dofs []) /\
    rep1 nMd (nth el dofs' []) (fun z y => add (q z y) (neighT el id (fun fa => d fa z) y)).
Proof.
  intros G HJ Hel LE Hc HF Rq. unfold neighElA. rewrite (rd_some _ _ _ Hc). cbn [bind]. rewrite (rd_ok dofs el []) by lia. cbn [bind].
  loop (fun m l => rep1 nMd l (fun z y => add (q z y) (sum A m (fun fa => surfS A cf (fsNeigh A cf S el fa) (nth (id fa) (gLN S) []) (nth fa (gFT S) []) (d fa z) y)))) as l E H.
  - lia.
  - eapply rep1_ext; [exact Rq|]. intros. cbn [AderSpec.sum]. ring.
  - intros fa l Hfa Rl. destruct (neighFaceA_ok fl M c firstTs t0s t1s t2s recv J el fa (id fa) (d fa) l _ G HJ Hel (proj2 Hfa) (HF fa (proj2 Hfa)) Rl) as (l' & E & R). exists l'. split; [exact E|].
    eapply rep1_ext; [exact R|]. intros. cbn [AderSpec.sum]. ring.
  - rewrite wr_ok by lia. eexists. split; [reflexivity|]. rewrite length_upd. split; [exact LE|]. split; [intros; now rewrite nth_upd_ne by auto|]. rewrite nth_upd_eq by lia. exact H.
Qed.

Lemma neighA_ok fl M chars firstTs t0s t1s t2s recv J first m dofs (id : nat -> nat -> nat) (d : nat -> nat -> nat -> nat -> T) (q : nat -> nat -> nat -> T) :
  goodA cf S n -> junkA cf J -> first + m <= n -> length dofs = n ->
  (forall el, first <= el < first + m -> (exists c, nth_error chars el = Some c /\ forall fa, fa < nFa -> faceInA fl M c firstTs t0s t1s t2s recv el fa (id el fa) (d el fa)) /\ rep1 nMd (nth el dofs []) (q el)) ->
  exists dofs', neighA zero one add sub mul isz cf S fl M chars firstTs t0s t1s t2s recv J first m dofs = Ok dofs' /\ length dofs' = n /\
    (forall el, ~ (first <= el < first + m) -> nth el dofs' [] = nth el dofs []) /\
    (forall el, first <= el < first + m -> rep1 nMd (nth el dofs' []) (fun z y => add (q el z y) (neighT el (id el) (fun fa => d el fa z) y))).
Proof.
  intros G HJ Hn LE HF. unfold neighA.
  loop (fun k l => length l = n /\ (forall el, ~ (first <= el < k) -> nth el l [] = nth el dofs []) /\
    (forall el, first <= el < k -> rep1 nMd (nth el l []) (fun z y => add (q el z y) (neighT el (id el) (fun fa => d el fa z) y)))) as l E H.
  - lia.
  - split; [exact LE|]. split; [auto|]. intros; lia.
  - intros el l Hel (H1 & H2 & H3). destruct (HF el Hel) as ((c & Hc & Fi) & HQ). rewrite <- (H2 el) in HQ by lia.
    destruct (neighElA_ok fl M chars firstTs t0s t1s t2s recv J el l c (id el) (d el) (q el) G HJ ltac:(lia) H1 Hc Fi HQ) as (l' & E & K1 & K2 & K3).
    exists l'. split; [exact E|]. split; [exact K1|]. split.
    + intros el' N. rewrite K2 by lia. apply H2. lia.
    + intros el' N. destruct (Nat.eq_dec el' el) as [->|X]; [exact K3|]. rewrite K2 by exact X. apply H3. lia.
  - exists l. split; [reflexivity|exact H].
Qed.
End El.
