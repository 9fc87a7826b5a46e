(** Flux solvers of the advection equation: specification of the set-up and its proof. *)
From Coq Require Import List Arith Bool NArith Reals Lra Lia.
From Verif Require Import Util BasisSpec EdgePreM Sparse Qpts AdvFs.
Import ListNotations.
Local Open Scope R_scope.

Section V.
Variables (el : refEl) (ord : nat) (per : N) (I : advIn) (big : R) (nEls nFa : nat).
Local Notation d := (dim el).
Local Notation nF := (nFas el).

(** *** Specification *)
(** face [i] of element [e] is face [fa] of the mesh *)
Definition hasF (e i fa : nat) : Prop := exists row, nth_error (vElFa I) e = Some row /\ nth_error row i = Some fa.
(** the determinant of the mapping of element [e] *)
Definition detIs (e : nat) (D : R) : Prop := exists v j, nth_error (vCrd I) e = Some v /\ jac el v = Ok j /\ D = detOf d j.
(** the element behind face [i] of element [e] belongs to another partition *)
Definition received (e i : nat) : Prop := (vIn I <= e)%nat /\ In (e, i) (vRecv I).

(** Sizes; elements have different faces; a face has a left element and maybe a right one, both know the face as one of theirs (maybe not at a periodic boundary; the right one
    does not know it alone).  Orientation and areas are positive.  Every face of an element has the element on one of its sides. *)
Definition advWf : Prop :=
  length (vFaEl I) = nFa /\ length (vCh I) = nFa /\ length (vElFa I) = nEls /\ length (vBg I) = nEls /\ length (vBgRe I) = length (vRecv I) /\
  (forall e row, nth_error (vElFa I) e = Some row -> length row = nF /\ NoDup row /\ forall fa, In fa row -> (fa < nFa)%nat) /\
  (forall e, (e < nEls)%nat -> exists D, detIs e D /\ 0 < D) /\
  (forall fa ch, nth_error (vCh I) fa = Some ch -> 0 < aArea ch) /\
  (forall fa p ch, nth_error (vFaEl I) fa = Some p -> nth_error (vCh I) fa = Some ch -> exists l, fst p = Some l /\ (l < nEls)%nat /\
     ((exists i, hasF l i fa) \/ has (aSp ch) per = true) /\
     match snd p with
     | Some r => (r < nEls)%nat /\ r <> l /\ ((exists i, hasF r i fa) \/ has (aSp ch) per = true) /\ ((exists i, hasF r i fa) -> exists i, hasF l i fa)
     | None => True
     end) /\
  NoDup (vRecv I) /\
  (forall e i fa, hasF e i fa -> exists p, nth_error (vFaEl I) fa = Some p /\ (fst p = Some e \/ snd p = Some e)).

Definition vneg (n : R * R * R) : R * R * R := let '(a, b, c) := n in (- a, - b, - c).
(** What face [i] of element [e] looks like from the inside: outward normal, area and the speeds behind the face, if there is an element *)
Definition sideA (e i : nat) (n : R * R * R) (area : R) (w : option spd) : Prop :=
  exists fa ch, hasF e i fa /\ nth_error (vCh I) fa = Some ch /\ area = aArea ch /\
    ((exists eR, nth_error (vFaEl I) fa = Some (Some e, eR) /\ n = aN ch /\
        match eR with
        | Some r => exists v, nth_error (vBg I) r = Some v /\ w = Some v
        | None => (exists co v, (vIn I <= e)%nat /\ nth_error (vRecv I) co = Some (e, i) /\ nth_error (vBgRe I) co = Some v /\ w = Some v) \/ ~ received e i /\ w = None
        end) \/
     (exists l v, nth_error (vFaEl I) fa = Some (Some l, Some e) /\ n = vneg (aN ch) /\ nth_error (vBg I) l = Some v /\ w = Some v)).

(** surface over volume: the area of the face in the coordinates of its reference element over the determinant of the element's mapping *)
Definition ratio (area D : R) : R := match el with Tet => 2 * area / D | _ => area / D end.
(** what the code uses: six times of it for tetrahedra of order one *)
Definition used (area D : R) : R := match el with Tet => if (ord =? 1)%nat then 6 * ratio area D else ratio area D | _ => ratio area D end.

Definition get (o : arr) (e i : nat) : option R := match nth_error o e with Some row => nth_error row i | None => None end.
(** the upwind solvers: what leaves through the face with the own speed, what enters with the neighbour's *)
Definition isUp (o : arr) (e i : nat) : Prop := exists v n area w D, nth_error (vBg I) e = Some v /\ sideA e i n area w /\ detIs e D /\
  get o e i = Some (- Rmax 0 (dotN d v n) * used area D) /\
  get o e (nF + i) = Some (match w with Some w => - Rmin 0 (dotN d w n) * used area D | None => 0 end).

(** *** Proof *)
Definition shape (o : arr) : Prop := length o = nEls /\ forall e row, nth_error o e = Some row -> length row = (nF * 2)%nat.
Definition repr (o : arr) (f : nat -> nat -> R) : Prop := shape o /\ forall e i, (e < nEls)%nat -> (i < nF * 2)%nat -> get o e i = Some (f e i).
Definition upd2 (f : nat -> nat -> R) (e i : nat) (x : R) : nat -> nat -> R := fun e' i' => if (e' =? e)%nat && (i' =? i)%nat then x else f e' i'.
Lemma put_ok o f e i x : repr o f -> (e < nEls)%nat -> (i < nF * 2)%nat -> exists o', put o e i x = Ok o' /\ repr o' (upd2 f e i x).
Proof.
  intros ((L & S) & G) He Hi. destruct (nth_error o e) as [row|] eqn:E; [|apply nth_error_None in E; lia]. pose proof (S e row E) as Lr.
  unfold put. rewrite (rd_some _ _ _ E). cbn [bind]. rewrite wr_ok by lia. cbn [bind]. rewrite wr_ok by lia. eexists. split; [reflexivity|]. split.
  - split; [now rewrite length_upd|]. intros e' row' E'. destruct (Nat.eq_dec e' e) as [->|N].
    + rewrite nth_error_upd_eq in E' by lia. injection E' as <-. now rewrite length_upd.
    + rewrite nth_error_upd_ne in E' by auto. eauto.
  - intros e' i' He' Hi'. unfold upd2, get. destruct (Nat.eqb_spec e' e) as [Ee|N]; cbn [andb].
    + subst e'. rewrite nth_error_upd_eq by lia. destruct (Nat.eqb_spec i' i) as [Ei|N'].
      * subst i'. now rewrite nth_error_upd_eq by lia.
      * rewrite nth_error_upd_ne by auto. specialize (G e i' He Hi'). unfold get in G. now rewrite E in G.
    + rewrite nth_error_upd_ne by auto. now apply G.
Qed.
Definition scale1 (area D x : R) : R := let x := x / D * area in match el with Tet => x * 2 | _ => x end.
Lemma rescale_ok o f area D e i : repr o f -> (e < nEls)%nat -> (i < nF * 2)%nat -> exists o', rescale el area D o e i = Ok o' /\ repr o' (upd2 f e i (scale1 area D (f e i))).
Proof.
  intros P He Hi. pose proof P as (_ & G). specialize (G e i He Hi). unfold rescale. unfold get in G. destruct (nth_error o e) as [row|] eqn:E; [|discriminate]. rewrite (rd_some _ _ _ E). cbn [bind]. rewrite (rd_some _ _ _ G). cbn [bind].
  exact (put_ok o f e i _ P He Hi).
Qed.
(** under a condition *)
Lemma putIf o f (c : bool) e i x : repr o f -> (c = true -> (e < nEls)%nat /\ (i < nF * 2)%nat) -> exists o', (if c then put o e i x else Ok o) = Ok o' /\ repr o' (if c then upd2 f e i x else f).
Proof. intros P H. destruct c; [destruct (H eq_refl); now apply put_ok|]. now exists o. Qed.
Lemma rescaleIf o f (c : bool) area D e i : repr o f -> (c = true -> (e < nEls)%nat /\ (i < nF * 2)%nat) ->
  exists o', (if c then rescale el area D o e i else Ok o) = Ok o' /\ repr o' (if c then upd2 f e i (scale1 area D (f e i)) else f).
Proof. intros P H. destruct c; [destruct (H eq_refl); now apply rescale_ok|]. now exists o. Qed.

Variable WF : advWf.
Lemma findF_ok fa e : (e < nEls)%nat -> exists r, findF el I fa (Some e) = Ok r /\ match r with Some i => (i < nF)%nat /\ hasF e i fa | None => forall i, ~ hasF e i fa end.
Proof.
  intros He. destruct WF as (_ & _ & LE & _ & _ & H & _). destruct (nth_error (vElFa I) e) as [row|] eqn:E; [|apply nth_error_None in E; lia]. destruct (H e row E) as (Lr & ND & _).
  unfold findF. rewrite (rd_some _ _ _ E). cbn [bind].
  destruct (for_ok (fun k r => match r with Some i => (i < k)%nat /\ nth_error row i = Some fa | None => forall i, (i < k)%nat -> nth_error row i <> Some fa end) 0 nF
    (fun fi o => x <- rd row fi;; if (x =? fa)%nat then _ <- check (negb (isSome o));; Ok (Some fi) else Ok o) None) as (r & Er & P); [lia|intros i Hi; lia| |].
  - intros k r Hk P. destruct (nth_error row k) as [x|] eqn:Ex; [|apply nth_error_None in Ex; lia]. rewrite (rd_some _ _ _ Ex). cbn [bind]. destruct (Nat.eqb_spec x fa) as [->|Nx].
    + destruct r as [i|].
      * exfalso. destruct P as (Hi & Ei). assert (i = k) by (apply (proj1 (NoDup_nth_error row) ND); [lia|congruence]). lia.
      * cbn. eexists. split; [reflexivity|]. cbn. split; [lia|exact Ex].
    + eexists. split; [reflexivity|]. destruct r as [i|]; [split; [lia|apply P]|]. intros i Hi. destruct (Nat.eq_dec i k) as [->|N]; [congruence|apply P; lia].
  - exists r. split; [exact Er|]. destruct r as [i|].
    + destruct P as (Hi & Ei). split; [exact Hi|]. now exists row.
    + intros i (row' & E' & Ei). rewrite E in E'. injection E' as <-. apply (P i); [|exact Ei]. rewrite <- Lr. apply nth_error_Some. congruence.
Qed.
Lemma hasF_inj e i i' fa : hasF e i fa -> hasF e i' fa -> i = i'.
Proof.
  intros (row & E & Ei) (row' & E' & Ei'). rewrite E in E'. injection E' as <-. destruct WF as (_ & _ & _ & _ & _ & H & _). destruct (H e row E) as (_ & ND & _).
  apply (proj1 (NoDup_nth_error row) ND); [apply nth_error_Some|]; congruence.
Qed.
Lemma hasF_fun e i fa fa' : hasF e i fa -> hasF e i fa' -> fa = fa'.
Proof. intros (row & E & Ei) (row' & E' & Ei'). rewrite E in E'. injection E' as <-. congruence. Qed.
Lemma hasF_lt e i fa : hasF e i fa -> (e < nEls)%nat /\ (i < nF)%nat.
Proof.
  intros (row & E & Ei). destruct WF as (_ & _ & L3 & _ & _ & W1 & _). destruct (W1 e row E) as (Lr & _). split; [rewrite <- L3|rewrite <- Lr]; apply nth_error_Some; congruence.
Qed.
Lemma recvN_ok e i n : forall l co0 co, nth_error l co = Some (e, i) -> NoDup l -> (co0 + co < length (vBgRe I))%nat ->
  exists v, recvN el I big e (Some i) n l co0 = Ok (dotN d v n) /\ nth_error (vBgRe I) (co0 + co) = Some v.
Proof.
  induction l as [|[re rf] l IH]; intros co0 co E ND L; [destruct co; discriminate|]. cbn [recvN]. inversion ND as [|? ? Hin ND']; subst. destruct co as [|co].
  - cbn in E. injection E as -> ->. rewrite !Nat.eqb_refl. cbn [andb]. rewrite Nat.add_0_r in L |- *. destruct (nth_error (vBgRe I) co0) as [v|] eqn:Em; [|apply nth_error_None in Em; lia]. exists v. rewrite (rd_some _ _ _ Em). now split.
  - cbn in E. destruct ((re =? e)%nat && (rf =? i)%nat) eqn:X.
    + apply andb_true_iff in X. destruct X as (X & Y). apply Nat.eqb_eq in X, Y. subst. exfalso. apply Hin. now apply nth_error_In in E.
    + destruct (IH (S co0) co E ND') as (m & Em & Hm); [lia|]. exists m. split; [exact Em|]. now rewrite <- plus_n_Sm.
Qed.
Lemma recvN_no e fi n : forall l co0, (forall i, fi = Some i -> ~ In (e, i) l) -> recvN el I big e fi n l co0 = Ok big.
Proof.
  induction l as [|[re rf] l IH]; intros co0 H; [reflexivity|]. cbn [recvN]. destruct fi as [i|]; [|rewrite andb_false_r; apply IH; discriminate].
  destruct ((re =? e)%nat && (rf =? i)%nat) eqn:X.
  - apply andb_true_iff in X. destruct X as (X & Y). apply Nat.eqb_eq in X, Y. subst. exfalso. apply (H i eq_refl). now left.
  - apply IH. intros j Ej Hin. apply (H j Ej). now right.
Qed.
Lemma detEl_ok e : (e < nEls)%nat -> exists D x, detIs e D /\ 0 < D /\ detEl el ord I e = Ok x /\ 0 < x /\ forall area y, scale1 area x y = y * used area D.
Proof.
  intros He. destruct WF as (_ & _ & _ & _ & _ & _ & W & _). destruct (W e He) as (D & (v & j & E1 & E2 & E3) & HD).
  exists D, (match el with Tet => if (ord =? 1)%nat then D / 6 else D | _ => D end). split; [now exists v, j|]. split; [exact HD|]. split.
  { unfold detEl. rewrite (rd_some _ _ _ E1). cbn [bind]. rewrite E2. cbn [bind]. now rewrite E3. }
  split; [destruct el; try assumption; destruct (ord =? 1)%nat; lra|]. intros area y. unfold scale1, used, ratio. destruct el; try (field; lra). destruct (ord =? 1)%nat; field; lra.
Qed.
Lemma dot_neg v n : dotN d v (vneg n) = - dotN d v n.
Proof. destruct v as ((a & b) & c), n as ((x & y) & z). unfold dotN, vneg. destruct el; cbn [dim]; ring. Qed.
Lemma rlt_t a b : a < b -> rlt a b = true. Proof. unfold rlt. now destruct (Rlt_dec a b). Qed.

Definition Inv (k : nat) (o : arr) : Prop := (exists f, repr o f) /\ forall e i fa, hasF e i fa -> if (fa <? k)%nat then isUp o e i else get o e i = Some 0 /\ get o e (nF + i) = Some 0.
Lemma isUp_same o o' e i : get o' e i = get o e i -> get o' e (nF + i) = get o e (nF + i) -> isUp o e i -> isUp o' e i.
Proof. intros E E' (v & n & area & w & D & H1 & H2 & H3 & H4 & H5). exists v, n, area, w, D. repeat (split; [assumption|]). now rewrite E, E'. Qed.

Lemma solveFace_ok (Hbig : 0 < big) k o : (k < nFa)%nat -> Inv k o -> exists o', solveFace el ord per I big k o = Ok o' /\ Inv (S k) o'.
Proof.
  intros Hk ((f & P) & Io). pose proof WF as (L1 & L2 & L3 & L4 & L5 & W1 & W2 & W3 & W4 & W5 & W6).
  destruct (nth_error (vFaEl I) k) as [[eL eR]|] eqn:Ep; [|apply nth_error_None in Ep; lia]. destruct (nth_error (vCh I) k) as [ch|] eqn:Ec; [|apply nth_error_None in Ec; lia].
  destruct (W4 k (eL, eR) ch Ep Ec) as (l & El & Hl & Wl & Wr). cbn [fst snd] in El, Wr. subst eL. pose proof (W3 k ch Ec) as Ha.
  unfold solveFace. rewrite (rd_some _ _ _ Ep). cbn [bind]. rewrite (rd_some _ _ _ Ec). cbn [bind fst snd].
  destruct (findF_ok k l Hl) as (fL & EfL & PL). rewrite EfL. cbn [bind].
  assert (XR : exists fR, findF el I k eR = Ok fR /\ match eR with Some r => match fR with Some i => (i < nF)%nat /\ hasF r i k | None => forall i, ~ hasF r i k end | None => fR = None end).
  { destruct eR as [r|]; [|exists None; split; reflexivity]. destruct Wr as (Hr & _). destruct (findF_ok k r Hr) as (fR & X & Y). now exists fR. }
  destruct XR as (fR & EfR & PR). rewrite EfR. cbn [bind].
  destruct (nth_error (vBg I) l) as [vL|] eqn:EvL; [|apply nth_error_None in EvL; lia]. rewrite (rd_some _ _ _ EvL). cbn [bind].
  assert (XM : exists a w, match eR with Some r => v <- rd (vBg I) r;; Ok (dotN d v (aN ch)) | None => if (vIn I <=? l)%nat then recvN el I big l fL (aN ch) (vRecv I) 0 else Ok big end = Ok a /\
    Rmin 0 a = match w with Some w => Rmin 0 (dotN d w (aN ch)) | None => 0 end /\
    (forall r, eR = Some r -> exists v, nth_error (vBg I) r = Some v /\ a = dotN d v (aN ch)) /\
    forall i, fL = Some i -> match eR with Some r => exists v, nth_error (vBg I) r = Some v /\ w = Some v
      | None => (exists co v, (vIn I <= l)%nat /\ nth_error (vRecv I) co = Some (l, i) /\ nth_error (vBgRe I) co = Some v /\ w = Some v) \/ ~ received l i /\ w = None end).
  { destruct eR as [r|].
    - destruct Wr as (Hr & _). destruct (nth_error (vBg I) r) as [v|] eqn:Ev; [|apply nth_error_None in Ev; lia]. exists (dotN d v (aN ch)), (Some v). rewrite (rd_some _ _ _ Ev). split; [reflexivity|]. split; [reflexivity|]. split; [|intros; now exists v].
      intros r' Er. injection Er as <-. now exists v.
    - assert (B0 : Rmin 0 big = 0) by (apply Rmin_left; lra). destruct (Nat.leb_spec (vIn I) l) as [Hin|Hin].
      2: { exists big, None. split; [reflexivity|]. split; [exact B0|]. split; [discriminate|]. intros i _. right. split; [|reflexivity]. intros (X & _). lia. }
      destruct fL as [i|]; [|exists big, None; split; [apply recvN_no; discriminate|split; [exact B0|split; discriminate]]].
      destruct (in_dec (fun a b : nat * nat => ltac:(decide equality; apply Nat.eq_dec)) (l, i) (vRecv I)) as [HI|HI].
      + apply In_nth_error in HI. destruct HI as (co & Eco). assert (Hco : (co < length (vRecv I))%nat) by (apply nth_error_Some; congruence).
        destruct (recvN_ok l i (aN ch) (vRecv I) 0 co Eco W5) as (v & E1 & E2); [lia|]. exists (dotN d v (aN ch)), (Some v). split; [exact E1|]. split; [reflexivity|]. split; [discriminate|]. intros j Ej. injection Ej as <-. left. exists co, v. repeat (split; [assumption|]). reflexivity.
      + exists big, None. split; [apply recvN_no; intros j Ej; now injection Ej as <-|]. split; [exact B0|]. split; [discriminate|]. intros j Ej. injection Ej as <-. right. split; [|reflexivity]. now intros (_ & X). }
  destruct XM as (a & w & EmR & Hw & PmR & Pw). rewrite EmR. cbn [bind isSome negb orb].
  assert (C1 : isSome fL || has (aSp ch) per = true). { destruct fL; [reflexivity|]. destruct Wl as [(i & X)|X]; [now apply PL in X|exact X]. }
  rewrite C1. cbn [check bind].
  assert (C2 : negb (isSome eR) || isSome fR || has (aSp ch) per = true). { destruct eR as [r|]; [|reflexivity]. destruct Wr as (_ & _ & Wr & _). destruct fR; [reflexivity|]. destruct Wr as [(i & X)|X]; [now apply PR in X|exact X]. }
  rewrite C2. cbn [check bind].
  destruct fL as [iL|]; cbn [isSome andb negb orb].
  2: { (* nobody knows the face *)
    exists o. split; [destruct (rlt 0 (dotN d vL (aN ch))), (rlt a 0); cbn [bind check]; rewrite (rlt_t _ _ Ha); reflexivity|]. split; [now exists f|]. intros e i fa Hf. specialize (Io e i fa Hf). destruct (Nat.ltb_spec fa k) as [X|X].
    - destruct (Nat.ltb_spec fa (S k)); [exact Io|lia].
    - destruct (Nat.ltb_spec fa (S k)) as [Y|Y]; [|exact Io]. assert (fa = k) by lia. subst fa. exfalso. destruct (W6 e i k Hf) as (p & E' & S'). rewrite Ep in E'. injection E' as <-. cbn [fst snd] in S'. destruct S' as [S'|S'].
      + injection S' as ->. exact (PL i Hf).
      + subst eR. destruct Wr as (_ & _ & _ & Wr). destruct Wr as (j & Hj); [now exists i|]. exact (PL j Hj). }
  destruct PL as (HiL & HfL).
  set (ex := isSome fR). set (r := match eR with Some r => r | None => 0%nat end). set (iR := match fR with Some i => i | None => 0%nat end).
  assert (X : ex = true -> eR = Some r /\ fR = Some iR /\ (r < nEls)%nat /\ r <> l /\ (iR < nF)%nat /\ hasF r iR k).
  { unfold ex, r, iR. destruct fR as [i|]; [|discriminate]. intros _. destruct eR as [r'|]; [|discriminate]. destruct PR as (A & B). destruct Wr as (C & D & _). auto 9. }
  assert (XN : ex = false -> forall e i, hasF e i k -> e = l).
  { intros E e i Hf. destruct (W6 e i k Hf) as (p & E' & S'). rewrite Ep in E'. injection E' as <-. cbn [fst snd] in S'. destruct S' as [S'|S']; [now injection S' as <-|]. subst eR. unfold ex in E. destruct fR as [j|]; [discriminate|]. now apply PR in Hf. }
  set (aL := dotN d vL (aN ch)).
  assert (T1 : exists o1, (if rlt 0 aL then o1 <- put o l iL (- aL);; (if ex then put o1 r (iR + nF) aL else Ok o1) else Ok o) = Ok o1 /\
    repr o1 (if rlt 0 aL then (if ex then upd2 (upd2 f l iL (- aL)) r (iR + nF) aL else upd2 f l iL (- aL)) else f)).
  { destruct (rlt 0 aL); [|now exists o]. destruct (put_ok o f l iL (- aL) P Hl) as (o1 & E1 & P1); [lia|]. rewrite E1. cbn [bind]. apply putIf; [exact P1|]. intros E. destruct (X E) as (_ & _ & A & _ & B & _). lia. }
  destruct T1 as (o1 & E1 & P1). cbn [bind] in E1. rewrite E1. cbn [bind]. clear E1.
  set (f1 := if rlt 0 aL then _ else f) in P1.
  assert (T2 : exists o2, (if rlt a 0 then o2 <- put o1 l (iL + nF) (- a);; (if ex then put o2 r iR a else Ok o2) else Ok o1) = Ok o2 /\
    repr o2 (if rlt a 0 then (if ex then upd2 (upd2 f1 l (iL + nF) (- a)) r iR a else upd2 f1 l (iL + nF) (- a)) else f1)).
  { destruct (rlt a 0); [|now exists o1]. destruct (put_ok o1 f1 l (iL + nF) (- a) P1 Hl) as (o2 & E2 & P2); [lia|]. rewrite E2. cbn [bind]. apply putIf; [exact P2|]. intros E. destruct (X E) as (_ & _ & A & _ & B & _). lia. }
  destruct T2 as (o2 & E2 & P2). rewrite E2. cbn [bind]. clear E2.
  set (f2 := if rlt a 0 then _ else f1) in P2.
  destruct (detEl_ok l Hl) as (DL & xL & HDL & HDL0 & ExL & HxL & SL). rewrite ExL. cbn [bind].
  assert (TR : exists DR xR, (if ex then detEl el ord I r else Ok big) = Ok xR /\ 0 < xR /\ (ex = true -> detIs r DR /\ forall area y, scale1 area xR y = y * used area DR)).
  { destruct ex eqn:Eex; [|exists 0, big; split; [reflexivity|split; [exact Hbig|discriminate]]]. destruct (X eq_refl) as (_ & _ & Hr & _). destruct (detEl_ok r Hr) as (D & x & A & _ & B & C & S). exists D, x. auto. }
  destruct TR as (DR & xR & ExR & HxR & SR). rewrite ExR. cbn [bind]. rewrite (rlt_t _ _ HxL), (rlt_t _ _ HxR), (rlt_t _ _ Ha), orb_true_r. cbn [check bind].
  destruct (rescale_ok o2 f2 (aArea ch) xL l iL P2 Hl) as (o3 & E3 & P3); [lia|]. rewrite E3. cbn [bind].
  destruct (rescaleIf o3 _ ex (aArea ch) xR r iR P3) as (o4 & E4 & P4); [intros E; destruct (X E) as (_ & _ & A & _ & B & _); lia|]. rewrite E4. cbn [bind].
  destruct (rescale_ok o4 _ (aArea ch) xL l (iL + nF) P4 Hl) as (o5 & E5 & P5); [lia|]. rewrite E5. cbn [bind].
  destruct (rescaleIf o5 _ ex (aArea ch) xR r (iR + nF) P5) as (o6 & E6 & P6); [intros E; destruct (X E) as (_ & _ & A & _ & B & _); lia|]. exists o6. split; [exact E6|]. clear E3 E4 E5 E6 P3 P4 P5.
  set (f6 := if ex then upd2 _ _ _ _ else _) in P6. split; [now exists f6|].
  assert (GI : forall e i, hasF e i k -> f e i = 0 /\ f e (nF + i)%nat = 0).
  { intros e i Hf. destruct (hasF_lt _ _ _ Hf) as (A & B). specialize (Io e i k Hf). rewrite Nat.ltb_irrefl in Io. destruct Io as (I1 & I2). destruct P as (_ & G). rewrite G in I1, I2 by lia. split; congruence. }
  assert (Mx : forall x, (if rlt 0 x then - x else 0) = - Rmax 0 x) by (intros x; unfold rlt; destruct (Rlt_dec 0 x); [rewrite Rmax_right|rewrite Rmax_left]; lra).
  assert (Mn : forall x, (if rlt x 0 then x else 0) = Rmin 0 x) by (intros x; unfold rlt; destruct (Rlt_dec x 0); [rewrite Rmin_right|rewrite Rmin_left]; lra).
  assert (Mx' : forall x, (if rlt 0 x then x else 0) = Rmax 0 x) by (intros x; unfold rlt; destruct (Rlt_dec 0 x); [rewrite Rmax_right|rewrite Rmax_left]; lra).
  assert (Mn' : forall x, (if rlt x 0 then - x else 0) = - Rmin 0 x) by (intros x; unfold rlt; destruct (Rlt_dec x 0); [rewrite Rmin_right|rewrite Rmin_left]; lra).
  assert (Q : forall e i, hasF e i k -> isUp o6 e i).
  { intros e i Hf. destruct (GI e i Hf) as (Z1 & Z2). destruct (hasF_lt _ _ _ Hf) as (He & Hi). destruct P6 as (_ & G6).
    destruct (Nat.eq_dec e l) as [Eel|Nel].
    - subst e. assert (i = iL) by (eapply hasF_inj; eauto). subst i. exists vL, (aN ch), (aArea ch), w, DL. split; [exact EvL|]. split; [|split; [exact HDL|]].
      { exists k, ch. repeat (split; [assumption||reflexivity|]). left. exists eR. repeat (split; [assumption||reflexivity|]). apply Pw. reflexivity. }
      rewrite !G6 by lia. split.
      + f_equal. fold aL. rewrite <- Mx. unfold f6, f2, f1, upd2. pose proof (proj2 (Nat.eqb_neq iL (iL + nF)) ltac:(lia)) as N1.
        destruct ex eqn:Eex; [destruct (X eq_refl) as (_ & _ & _ & Nr & _); pose proof (proj2 (Nat.eqb_neq l r) ltac:(lia)) as N2|]; destruct (rlt 0 aL), (rlt a 0); cbv beta; rewrite ?N1, ?N2, ?Nat.eqb_refl; cbn [andb]; rewrite ?N1, ?N2, ?Nat.eqb_refl; cbn [andb]; rewrite ?SL, ?Z1; reflexivity.
      + f_equal. transitivity (- Rmin 0 a * used (aArea ch) DL); [|rewrite Hw; destruct w; ring].
        replace (nF + iL)%nat with (iL + nF)%nat by lia. replace (nF + iL)%nat with (iL + nF)%nat in Z2 by lia. rewrite <- Mn'. unfold f6, f2, f1, upd2. pose proof (proj2 (Nat.eqb_neq (iL + nF) iL) ltac:(lia)) as N1.
        destruct ex eqn:Eex; [destruct (X eq_refl) as (_ & _ & _ & Nr & _); pose proof (proj2 (Nat.eqb_neq l r) ltac:(lia)) as N2|]; destruct (rlt 0 aL), (rlt a 0); cbv beta; rewrite ?N1, ?N2, ?Nat.eqb_refl; cbn [andb]; rewrite ?N1, ?N2, ?Nat.eqb_refl; cbn [andb]; rewrite ?SL, ?Z2; reflexivity.
    - destruct ex eqn:Eex; [|exfalso; apply Nel; eapply XN; eauto]. destruct (X eq_refl) as (EeR & EfR' & Hr & Nr & HiR & HfR). destruct (SR eq_refl) as (HDR & SR').
      assert (e = r). { destruct (W6 e i k Hf) as (p & E' & S'). rewrite Ep in E'. injection E' as <-. cbn [fst snd] in S'. destruct S' as [S'|S']; [injection S'; congruence|congruence]. }
      subst e. assert (i = iR) by (eapply hasF_inj; eauto). subst i. destruct (PmR r EeR) as (vR & EvR & Ea). exists vR, (vneg (aN ch)), (aArea ch), (Some vL), DR. split; [exact EvR|]. split; [|split; [exact HDR|]].
      { exists k, ch. repeat (split; [assumption||reflexivity|]). right. exists l, vL. rewrite <- EeR. repeat (split; [assumption||reflexivity|]). reflexivity. }
      rewrite !G6 by lia. rewrite !dot_neg. fold aL. rewrite <- Ea. split.
      + f_equal. assert (H0 : - Rmax 0 (- a) = Rmin 0 a) by (unfold Rmax, Rmin; destruct (Rle_dec 0 (- a)), (Rle_dec 0 a); lra). rewrite H0.
        rewrite <- Mn. unfold f6, f2, f1, upd2. pose proof (proj2 (Nat.eqb_neq iR (iR + nF)) ltac:(lia)) as N1. pose proof (proj2 (Nat.eqb_neq r l) Nr) as N2.
        destruct (rlt 0 aL), (rlt a 0); cbv beta; rewrite ?N1, ?N2, ?Nat.eqb_refl; cbn [andb]; rewrite ?N1, ?N2, ?Nat.eqb_refl; cbn [andb]; rewrite ?SR', ?Z1; reflexivity.
      + f_equal. assert (H0 : - Rmin 0 (- aL) = Rmax 0 aL) by (unfold Rmax, Rmin; destruct (Rle_dec 0 (- aL)), (Rle_dec 0 aL); lra). rewrite H0.
        replace (nF + iR)%nat with (iR + nF)%nat by lia. replace (nF + iR)%nat with (iR + nF)%nat in Z2 by lia.
        rewrite <- Mx'. unfold f6, f2, f1, upd2. pose proof (proj2 (Nat.eqb_neq (iR + nF) iR) ltac:(lia)) as N1. pose proof (proj2 (Nat.eqb_neq r l) Nr) as N2.
        destruct (rlt 0 aL), (rlt a 0); cbv beta; rewrite ?N1, ?N2, ?Nat.eqb_refl; cbn [andb]; rewrite ?N1, ?N2, ?Nat.eqb_refl; cbn [andb]; rewrite ?SR', ?Z2; reflexivity. }
  assert (Oth : forall e i fa, hasF e i fa -> fa <> k -> f6 e i = f e i /\ f6 e (nF + i)%nat = f e (nF + i)%nat).
  { intros e i fa Hf N. destruct (hasF_lt _ _ _ Hf) as (_ & Hi).
    assert (A : (e =? l)%nat && (i =? iL)%nat = false). { destruct (Nat.eqb_spec e l) as [E1|]; [|reflexivity]. destruct (Nat.eqb_spec i iL) as [E2|]; [|reflexivity]. subst. exfalso. apply N. eapply hasF_fun; eauto. }
    assert (A' : (e =? l)%nat && (nF + i =? iL + nF)%nat = false). { replace (nF + i =? iL + nF)%nat with (i =? iL)%nat; [exact A|]. destruct (Nat.eqb_spec i iL), (Nat.eqb_spec (nF + i) (iL + nF)); lia || reflexivity. }
    assert (A2 : (i =? iL + nF)%nat = false /\ (nF + i =? iL)%nat = false) by (split; apply Nat.eqb_neq; lia). destruct A2 as (A2 & A3).
    assert (B0 : ex = true -> (e =? r)%nat && (i =? iR)%nat = false /\ (e =? r)%nat && (nF + i =? iR + nF)%nat = false /\ (i =? iR + nF)%nat = false /\ (nF + i =? iR)%nat = false).
    { intros Ex. destruct (X Ex) as (_ & _ & _ & _ & HiR & HfR).
      assert (B : (e =? r)%nat && (i =? iR)%nat = false). { destruct (Nat.eqb_spec e r) as [E1|]; [|reflexivity]. destruct (Nat.eqb_spec i iR) as [E2|]; [|reflexivity]. exfalso. apply N. rewrite E1, E2 in Hf. eapply hasF_fun; eauto. }
      split; [exact B|]. split; [|split; apply Nat.eqb_neq; lia]. replace (nF + i =? iR + nF)%nat with (i =? iR)%nat; [exact B|]. destruct (Nat.eqb_spec i iR), (Nat.eqb_spec (nF + i) (iR + nF)); lia || reflexivity. }
    unfold f6, f2, f1, upd2.
    destruct ex; [destruct (B0 eq_refl) as (B1 & B2 & B3 & B4)|]; destruct (rlt 0 aL), (rlt a 0); cbv beta; rewrite ?A, ?A', ?A2, ?A3, ?B1, ?B2, ?B3, ?B4, ?andb_false_r; auto. }
  intros e i fa Hf. destruct (Nat.eq_dec fa k) as [->|N].
  - rewrite (proj2 (Nat.ltb_lt k (S k)) (Nat.lt_succ_diag_r k)). now apply Q.
  - destruct (hasF_lt _ _ _ Hf) as (He & Hi). destruct (Oth e i fa Hf N) as (O1 & O2). destruct P6 as (_ & G6), P as (_ & G).
    assert (S1 : get o6 e i = get o e i) by (rewrite G6, G, O1 by lia; reflexivity). assert (S2 : get o6 e (nF + i) = get o e (nF + i)) by (rewrite G6, G, O2 by lia; reflexivity).
    specialize (Io e i fa Hf). destruct (Nat.ltb_spec fa k), (Nat.ltb_spec fa (S k)); try lia; [now apply (isUp_same o)|]. now rewrite S1, S2.
Qed.

Lemma nth_rep {X} (x : X) n i : (i < n)%nat -> nth_error (repeat x n) i = Some x.
Proof. revert i. induction n as [|n IH]; intros [|i] H; try lia; [reflexivity|]. cbn. apply IH. lia. Qed.
Lemma setupSolvers_ok (Hbig : 0 < big) : exists o, setupSolvers el ord per I big nEls nFa = Ok o /\ shape o /\ forall e i, (e < nEls)%nat -> (i < nF)%nat -> isUp o e i.
Proof.
  unfold setupSolvers. destruct (for_ok Inv 0 nFa (solveFace el ord per I big) (repeat (repeat 0 (nF * 2)) nEls)) as (o & E & (f & Sh & _) & Io).
  - lia.
  - assert (R0 : repr (repeat (repeat 0 (nF * 2)) nEls) (fun _ _ => 0)).
    { split; [|intros e i He Hi; unfold get; rewrite nth_rep by lia; now apply nth_rep]. split; [apply repeat_length|]. intros e row Er. apply nth_error_In, repeat_spec in Er. subst. apply repeat_length. }
    split; [now exists (fun _ _ => 0)|]. intros e i fa Hf. destruct (hasF_lt _ _ _ Hf) as (He & Hi). destruct R0 as (_ & G). cbn [Nat.ltb Nat.leb]. split; apply G; lia.
  - intros k o Hk. apply solveFace_ok; [exact Hbig|lia].
  - exists o. split; [exact E|]. split; [exact Sh|]. intros e i He Hi. destruct WF as (_ & _ & L3 & _ & _ & W1 & _).
    destruct (nth_error (vElFa I) e) as [row|] eqn:Er; [|apply nth_error_None in Er; lia]. destruct (W1 e row Er) as (Lr & _ & Hin). destruct (nth_error row i) as [fa|] eqn:Ef; [|apply nth_error_None in Ef; lia].
    specialize (Io e i fa ltac:(now exists row)). rewrite (proj2 (Nat.ltb_lt fa nFa)) in Io; [exact Io|]. apply Hin. now apply nth_error_In in Ef.
Qed.
End V.
