(** Initialization of the flux solvers: specification and proof for any function which computes the solvers of a face. *)
From Verif Require Import Util MeshConn Sparse ElGen Elastic InitFs.
Local Open Scope nat_scope.

Section V.
Context {T : Type}.
Variables (zero one : T) (add mul div : T -> T -> T) (opp : T -> T) (ltb : T -> T -> bool).
Local Notation mat := (@mat T).
Local Notation vec := (@vec T).
Local Notation solvers := (@solvers T).
Variables (el : elType) (B : bmasks) (I : @fsIn T) (nEls nFas : nat).
Local Notation nFa := (nElFas el).
Local Opaque nElFas.

(** *** Specification *)
(** face [i] of element [e] is face [fa] of the mesh *)
Definition hasFace (e i fa : nat) : Prop := exists row, nth_error (iElFa I) e = Some row /\ nth_error row i = Some fa.
(** a boundary condition is given *)
Definition boundary (ch : @fchar T) : bool := has (fcSp ch) (bOut B) || has (fcSp ch) (bFree B).

(** Sizes; elements have different faces; a face has a left element and maybe a right one, both know the face as one of theirs (maybe not at a periodic boundary; the
    right one does not know it alone); without a right element there is a boundary condition or a partition behind; free surfaces have no right element.  Orientation and
    areas are positive.  Every face of an element has the element on one of its sides. *)
Definition fsWf : Prop :=
  length (iFaEl I) = nFas /\ length (iCh I) = nFas /\ length (iElFa I) = nEls /\ length (iBg I) = nEls /\ length (iJDet I) = nEls /\
  (forall e row, nth_error (iElFa I) e = Some row -> length row = nFa /\ NoDup row /\ forall fa, In fa row -> fa < nFas) /\
  (forall e d, nth_error (iJDet I) e = Some d -> ltb zero d = true) /\
  (forall fa ch, nth_error (iCh I) fa = Some ch -> ltb zero (fcArea ch) = true) /\
  (forall fa p ch, nth_error (iFaEl I) fa = Some p -> nth_error (iCh I) fa = Some ch -> exists l, fst p = Some l /\ l < nEls /\
     let per := has (fcSp ch) (bPer B) in
     ((exists i, hasFace l i fa) \/ per = true) /\
     match snd p with
     | Some r => r < nEls /\ r <> l /\ ((exists i, hasFace r i fa) \/ per = true) /\ ((exists i, hasFace r i fa) -> (exists i, hasFace l i fa) /\ has (fcSp ch) (bFree B) = false)
     | None => boundary ch = true \/ boundary ch = false /\ iIn I <= l /\ exists i co, hasFace l i fa /\ nth_error (iRecv I) co = Some (l, i) /\ co < length (iBgRe I)
     end) /\
  NoDup (iRecv I) /\
  (forall e i fa, hasFace e i fa -> exists p, nth_error (iFaEl I) fa = Some p /\ (fst p = Some e \/ snd p = Some e)).

(** What face [i] of element [e] looks like from the inside: material behind, outward normal, tangents, free surface, area *)
Definition side (e i : nat) (m : mat) (n s t : vec) (free : bool) (area : T) : Prop :=
  exists fa ch, hasFace e i fa /\ nth_error (iCh I) fa = Some ch /\ s = fcS ch /\ t = fcT ch /\ area = fcArea ch /\
    ((exists eR, nth_error (iFaEl I) fa = Some (Some e, eR) /\ n = fcN ch /\ free = has (fcSp ch) (bFree B) /\
        match eR with
        | Some r => nth_error (iBg I) r = Some m
        | None => if boundary ch then nth_error (iBg I) e = Some m else exists co, nth_error (iRecv I) co = Some (e, i) /\ nth_error (iBgRe I) co = Some m
        end) \/
     (exists l, nth_error (iFaEl I) fa = Some (Some l, Some e) /\ n = vopp opp (fcN ch) /\ free = false /\ nth_error (iBg I) l = Some m)).

Variable fs : mat -> mat -> vec -> vec -> vec -> bool -> res solvers.
(** the solvers can be computed *)
Definition solvable : Prop := forall e i m0 m n s t free area, nth_error (iBg I) e = Some m0 -> side e i m n s t free area -> exists x, fs m0 m n s t free = Ok x.
Definition get (o : @arr T) (e i : nat) : option (option solvers) := match nth_error o e with Some row => nth_error row i | None => None end.
(** the solvers of the face's side, times minus area over determinant *)
Definition isSet (o : @arr T) (e i : nat) : Prop := exists m0 m n s t free area d x, nth_error (iBg I) e = Some m0 /\ side e i m n s t free area /\ nth_error (iJDet I) e = Some d /\
  fs m0 m n s t free = Ok x /\ get o e i = Some (Some (scaleFs mul (scaling one add mul div opp el area d) x)).

(** *** Proof *)
Definition shape (o : @arr T) : Prop := length o = nEls /\ forall e row, nth_error o e = Some row -> length row = nFa.
Lemma put_ok o e i x : shape o -> e < nEls -> i < nFa -> exists o', put o e i x = Ok o' /\ shape o' /\ get o' e i = Some x /\ forall e' i', (e', i') <> (e, i) -> get o' e' i' = get o e' i'.
Proof.
  intros (L & S) He Hi. destruct (nth_error o e) as [row|] eqn:E; [|apply nth_error_None in E; lia]. pose proof (S e row E) as Lr.
  unfold put. rewrite (rd_some _ _ _ E). cbn [bind]. rewrite wr_ok by lia. cbn [bind]. rewrite wr_ok by lia. eexists. split; [reflexivity|]. split; [|split].
  - split; [now rewrite length_upd|]. intros e' row' E'. destruct (Nat.eq_dec e' e) as [->|N].
    + rewrite nth_error_upd_eq in E' by lia. injection E' as <-. now rewrite length_upd.
    + rewrite nth_error_upd_ne in E' by auto. eauto.
  - unfold get. rewrite nth_error_upd_eq by lia. now rewrite nth_error_upd_eq by lia.
  - intros e' i' N. unfold get. destruct (Nat.eq_dec e' e) as [->|N'].
    + rewrite nth_error_upd_eq, E by lia. apply nth_error_upd_ne. congruence.
    + now rewrite nth_error_upd_ne by auto.
Qed.
Lemma rescale_ok o e i c x : shape o -> e < nEls -> i < nFa -> get o e i = Some (Some x) ->
  exists o', rescale mul o e i c = Ok o' /\ shape o' /\ get o' e i = Some (Some (scaleFs mul c x)) /\ forall e' i', (e', i') <> (e, i) -> get o' e' i' = get o e' i'.
Proof.
  intros S He Hi G. unfold rescale. unfold get in G. destruct (nth_error o e) as [row|] eqn:E; [|discriminate]. rewrite (rd_some _ _ _ E). cbn [bind]. rewrite (rd_some _ _ _ G). cbn [bind]. now apply put_ok.
Qed.

Variable WF : fsWf.
Lemma findFa_ok fa e : e < nEls -> exists r, findFa el I fa (Some e) = Ok r /\ match r with Some i => i < nFa /\ hasFace e i fa | None => forall i, ~ hasFace e i fa end.
Proof.
  intros He. destruct WF as (_ & _ & LE & _ & _ & H & _). destruct (nth_error (iElFa I) e) as [row|] eqn:E; [|apply nth_error_None in E; lia]. destruct (H e row E) as (Lr & ND & _).
  unfold findFa. rewrite (rd_some _ _ _ E). cbn [bind].
  destruct (for_ok (fun k r => match r with Some i => i < k /\ nth_error row i = Some fa | None => forall i, i < k -> nth_error row i <> Some fa end) 0 nFa
    (fun fi o => x <- rd row fi;; if x =? fa then _ <- check (negb (isSome o));; Ok (Some fi) else Ok o) None) as (r & Er & P); [lia|intros i Hi; lia| |].
  - intros k r Hk P. destruct (nth_error row k) as [x|] eqn:Ex; [|apply nth_error_None in Ex; lia]. rewrite (rd_some _ _ _ Ex). cbn [bind]. destruct (Nat.eqb_spec x fa) as [->|Nx].
    + destruct r as [i|].
      * exfalso. destruct P as (Hi & Ei). assert (i = k) by (apply (proj1 (NoDup_nth_error row) ND); [lia|congruence]). lia.
      * cbn. eexists. split; [reflexivity|]. cbn. split; [lia|exact Ex].
    + eexists. split; [reflexivity|]. destruct r as [i|]; [split; [lia|apply P]|]. intros i Hi. destruct (Nat.eq_dec i k) as [->|N]; [congruence|apply P; lia].
  - exists r. split; [exact Er|]. destruct r as [i|].
    + destruct P as (Hi & Ei). split; [exact Hi|]. now exists row.
    + intros i (row' & E' & Ei). rewrite E in E'. injection E' as <-. apply (P i); [|exact Ei]. rewrite <- Lr. apply nth_error_Some. congruence.
Qed.
Lemma hasFace_inj e i i' fa : hasFace e i fa -> hasFace e i' fa -> i = i'.
Proof.
  intros (row & E & Ei) (row' & E' & Ei'). rewrite E in E'. injection E' as <-. destruct WF as (_ & _ & _ & _ & _ & H & _). destruct (H e row E) as (_ & ND & _).
  apply (proj1 (NoDup_nth_error row) ND); [apply nth_error_Some|]; congruence.
Qed.
Lemma hasFace_fun e i fa fa' : hasFace e i fa -> hasFace e i fa' -> fa = fa'.
Proof. intros (row & E & Ei) (row' & E' & Ei'). rewrite E in E'. injection E' as <-. congruence. Qed.
Lemma findRecv_ok e i : forall l co0 co, nth_error l co = Some (e, i) -> NoDup l -> co0 + co < length (iBgRe I) -> exists m, findRecv I e (Some i) l co0 = Ok m /\ nth_error (iBgRe I) (co0 + co) = Some m.
Proof.
  induction l as [|[re rf] l IH]; intros co0 co E ND L; [destruct co; discriminate|]. cbn [findRecv]. inversion ND as [|? ? Hin ND']; subst. destruct co as [|co].
  - cbn in E. injection E as -> ->. rewrite !Nat.eqb_refl. cbn [andb]. rewrite Nat.add_0_r in L |- *. destruct (nth_error (iBgRe I) co0) as [m|] eqn:Em; [|apply nth_error_None in Em; lia]. exists m. split; [now apply rd_some|reflexivity].
  - cbn in E. destruct ((re =? e) && (rf =? i)) eqn:X.
    + apply andb_true_iff in X. destruct X as (X & Y). apply Nat.eqb_eq in X, Y. subst. exfalso. apply Hin. now apply nth_error_In in E.
    + destruct (IH (S co0) co E ND') as (m & Em & Hm); [lia|]. exists m. split; [exact Em|]. now rewrite <- plus_n_Sm.
Qed.

Variable HF : solvable.
Definition Inv (k : nat) (o : arr) : Prop := shape o /\ forall e i fa, hasFace e i fa -> if fa <? k then isSet o e i else get o e i = Some None.

(** the face's position in an element does not matter for others *)
Lemma isSet_same o o' e i : get o' e i = get o e i -> isSet o e i -> isSet o' e i.
Proof. intros E (m0 & m & n & s & t & free & area & d & x & H1 & H2 & H3 & H4 & H5). exists m0, m, n, s, t, free, area, d, x. repeat (split; [assumption|]). now rewrite E. Qed.

Lemma initFace_ok k o : k < nFas -> Inv k o -> exists o', initFace zero one add mul div opp ltb el fs B I k o = Ok o' /\ Inv (S k) o'.
Proof.
  intros Hk (Sh & Io). pose proof WF as (L1 & L2 & L3 & L4 & L5 & W1 & W2 & W3 & W4 & W5 & W6).
  destruct (nth_error (iFaEl I) k) as [[eL eR]|] eqn:Ep; [|apply nth_error_None in Ep; lia]. destruct (nth_error (iCh I) k) as [ch|] eqn:Ec; [|apply nth_error_None in Ec; lia].
  destruct (W4 k (eL, eR) ch Ep Ec) as (l & El & Hl & Wl & Wr). cbn [fst snd] in El, Wr. subst eL. pose proof (W3 k ch Ec) as Ha.
  unfold initFace. rewrite (rd_some _ _ _ Ep). cbn [bind]. rewrite (rd_some _ _ _ Ec). cbn [bind fst snd].
  destruct (findFa_ok k l Hl) as (fL & EfL & PL). rewrite EfL. cbn [bind].
  assert (XR : exists fR, findFa el I k eR = Ok fR /\ match eR with Some r => match fR with Some i => i < nFa /\ hasFace r i k | None => forall i, ~ hasFace r i k end | None => fR = None end).
  { destruct eR as [r|]; [|exists None; split; reflexivity]. destruct Wr as (Hr & _). destruct (findFa_ok k r Hr) as (fR & X & Y). now exists fR. }
  destruct XR as (fR & EfR & PR). rewrite EfR. cbn [bind isSome negb orb].
  assert (C1 : isSome fL || has (fcSp ch) (bPer B) = true). { destruct fL; [reflexivity|]. destruct Wl as [(i & X)|X]; [now apply PL in X|exact X]. }
  rewrite C1. cbn [check bind].
  assert (C2 : negb (isSome eR) || isSome fR || has (fcSp ch) (bPer B) = true). { destruct eR as [r|]; [|reflexivity]. destruct Wr as (_ & _ & Wr & _). destruct fR; [reflexivity|]. destruct Wr as [(i & X)|X]; [now apply PR in X|exact X]. }
  rewrite C2. cbn [check bind].
  destruct (nth_error (iBg I) l) as [mL|] eqn:EmL; [|apply nth_error_None in EmL; lia]. rewrite (rd_some _ _ _ EmL). cbn [bind].
  assert (XM : exists mR, match eR with Some r => rd (iBg I) r | None => if has (fcSp ch) (bOut B) || has (fcSp ch) (bFree B) then Ok mL else if iIn I <=? l then findRecv I l fL (iRecv I) 0 else Er Echeck end = Ok mR /\
    match eR with Some r => nth_error (iBg I) r = Some mR | None => forall i, fL = Some i -> if boundary ch then nth_error (iBg I) l = Some mR else exists co, nth_error (iRecv I) co = Some (l, i) /\ nth_error (iBgRe I) co = Some mR end).
  { destruct eR as [r|].
    - destruct Wr as (Hr & _). destruct (nth_error (iBg I) r) as [mR|] eqn:EmR; [|apply nth_error_None in EmR; lia]. exists mR. split; [now apply rd_some|reflexivity].
    - change (has (fcSp ch) (bOut B) || has (fcSp ch) (bFree B)) with (boundary ch). destruct Wr as [Eb|(Eb & Hin & i & co & Hf & Er & Hco)]; rewrite Eb.
      + exists mL. split; [reflexivity|auto].
      + rewrite (proj2 (Nat.leb_le _ _) Hin). destruct fL as [i'|]; [|exfalso; exact (PL i Hf)]. destruct PL as (_ & Hf'). rewrite (hasFace_inj l i' i k Hf' Hf).
        destruct (findRecv_ok l i (iRecv I) 0 co Er W5 Hco) as (m & E1 & E2). exists m. split; [exact E1|]. intros j Ej. injection Ej as <-. exists co. split; [exact Er|exact E2]. }
  destruct XM as (mR & EmR & PmR). rewrite EmR. cbn [bind].
  destruct fL as [iL|]; cbn [isSome andb negb orb].
  2: { (* nobody knows the face *)
    cbn [bind check]. rewrite Ha. cbn [check bind]. exists o. split; [reflexivity|]. split; [exact Sh|]. intros e i fa Hf. specialize (Io e i fa Hf). destruct (Nat.ltb_spec fa k) as [X|X].
    - destruct (Nat.ltb_spec fa (S k)); [exact Io|lia].
    - destruct (Nat.ltb_spec fa (S k)) as [Y|Y]; [|exact Io]. assert (fa = k) by lia. subst fa. exfalso. destruct (W6 e i k Hf) as (p & E' & S'). rewrite Ep in E'. injection E' as <-. cbn [fst snd] in S'. destruct S' as [S'|S'].
      + injection S' as ->. exact (PL i Hf).
      + subst eR. destruct Wr as (_ & _ & _ & Wr). destruct Wr as ((j & Hj) & _); [now exists i|]. exact (PL j Hj). }
  destruct PL as (HiL & HfL).
  assert (SL : side l iL mR (fcN ch) (fcS ch) (fcT ch) (has (fcSp ch) (bFree B)) (fcArea ch)).
  { exists k, ch. repeat (split; [assumption||reflexivity|]). left. exists eR. repeat (split; [assumption||reflexivity|]). destruct eR as [r|]; [exact PmR|]. now apply PmR. }
  destruct (HF l iL mL mR _ _ _ _ _ EmL SL) as (x & Ex). rewrite Ex. cbn [bind].
  destruct (put_ok o l iL (Some x) Sh Hl HiL) as (o1 & E1 & Sh1 & G1 & K1). rewrite E1. cbn [bind].
  destruct (nth_error (iJDet I) l) as [dL|] eqn:EdL; [|apply nth_error_None in EdL; lia]. pose proof (W2 l dL EdL) as HdL.
  destruct fR as [iR|]; cbn [isSome andb negb orb].
  - destruct eR as [r|]; [|discriminate]. destruct PR as (HiR & HfR). destruct Wr as (Hr & Nr & _ & Wr). destruct Wr as (_ & Efr); [now exists iR|]. rewrite Efr. cbn [negb check bind].
    assert (SR : side r iR mL (vopp opp (fcN ch)) (fcS ch) (fcT ch) false (fcArea ch)).
    { exists k, ch. repeat (split; [assumption||reflexivity|]). right. exists l. repeat (split; [assumption||reflexivity|]). assumption. }
    destruct (HF r iR mR mL _ _ _ _ _ PmR SR) as (y & Ey). rewrite Ey. cbn [bind].
    destruct (put_ok o1 r iR (Some y) Sh1 Hr HiR) as (o2 & E2 & Sh2 & G2 & K2). rewrite E2. cbn [bind].
    rewrite (rd_some _ _ _ EdL). cbn [bind]. destruct (nth_error (iJDet I) r) as [dR|] eqn:EdR; [|apply nth_error_None in EdR; lia]. pose proof (W2 r dR EdR) as HdR. rewrite (rd_some _ _ _ EdR). cbn [bind].
    rewrite HdL, HdR, Ha. cbn [check bind].
    assert (G2' : get o2 l iL = Some (Some x)) by (rewrite K2 by congruence; exact G1).
    destruct (rescale_ok o2 l iL (scaling one add mul div opp el (fcArea ch) dL) x Sh2 Hl HiL G2') as (o3 & E3 & Sh3 & G3 & K3). rewrite E3. cbn [bind].
    assert (G3' : get o3 r iR = Some (Some y)) by (rewrite K3 by congruence; exact G2).
    destruct (rescale_ok o3 r iR (scaling one add mul div opp el (fcArea ch) dR) y Sh3 Hr HiR G3') as (o4 & E4 & Sh4 & G4 & K4).
    exists o4. split; [exact E4|]. split; [exact Sh4|]. intros e i fa Hf.
    assert (Oth : fa <> k -> get o4 e i = get o e i).
    { intros N. rewrite K4, K3, K2, K1; [reflexivity| | | |]; intros X; injection X as -> ->; apply N; eapply hasFace_fun; eauto. }
    destruct (Nat.eq_dec fa k) as [->|N].
    + rewrite (proj2 (Nat.ltb_lt k (S k)) (Nat.lt_succ_diag_r k)). destruct (W6 e i k Hf) as (p & E' & S'). rewrite Ep in E'. injection E' as <-. cbn [fst snd] in S'. destruct S' as [S'|S']; injection S' as <-.
      * rewrite (hasFace_inj _ _ _ _ Hf HfL). exists mL, mR, (fcN ch), (fcS ch), (fcT ch), (has (fcSp ch) (bFree B)), (fcArea ch), dL, x. repeat (split; [assumption|]). rewrite K4 by congruence. exact G3.
      * rewrite (hasFace_inj _ _ _ _ Hf HfR). exists mR, mL, (vopp opp (fcN ch)), (fcS ch), (fcT ch), false, (fcArea ch), dR, y. repeat (split; [assumption|]). exact G4.
    + specialize (Io e i fa Hf). specialize (Oth N). destruct (Nat.ltb_spec fa k), (Nat.ltb_spec fa (S k)); try lia; [now apply (isSet_same o)|congruence].
  - cbn [bind check]. rewrite (rd_some _ _ _ EdL). cbn [bind]. rewrite HdL, Ha. cbn [check bind].
    destruct (rescale_ok o1 l iL (scaling one add mul div opp el (fcArea ch) dL) x Sh1 Hl HiL G1) as (o3 & E3 & Sh3 & G3 & K3). rewrite E3. cbn [bind].
    exists o3. split; [reflexivity|]. split; [exact Sh3|]. intros e i fa Hf.
    assert (Oth : fa <> k -> get o3 e i = get o e i).
    { intros N. rewrite K3, K1; [reflexivity| |]; intros X; injection X as -> ->; apply N; eapply hasFace_fun; eauto. }
    destruct (Nat.eq_dec fa k) as [->|N].
    + rewrite (proj2 (Nat.ltb_lt k (S k)) (Nat.lt_succ_diag_r k)). destruct (W6 e i k Hf) as (p & E' & S'). rewrite Ep in E'. injection E' as <-. cbn [fst snd] in S'. destruct S' as [S'|S'].
      * injection S' as <-. rewrite (hasFace_inj _ _ _ _ Hf HfL). exists mL, mR, (fcN ch), (fcS ch), (fcT ch), (has (fcSp ch) (bFree B)), (fcArea ch), dL, x. repeat (split; [assumption|]). exact G3.
      * subst eR. exfalso. exact (PR i Hf).
    + specialize (Io e i fa Hf). specialize (Oth N). destruct (Nat.ltb_spec fa k), (Nat.ltb_spec fa (S k)); try lia; [now apply (isSet_same o)|congruence].
Qed.

Lemma initFs_ok : exists o, initFsOf zero one add mul div opp ltb el fs B I nEls nFas = Ok o /\ shape o /\ forall e i, e < nEls -> i < nFa -> isSet o e i.
Proof.
  unfold initFsOf. destruct (for_ok Inv 0 nFas (initFace zero one add mul div opp ltb el fs B I) (repeat (repeat None nFa) nEls)) as (o & E & Sh & Io).
  - lia.
  - split.
    + split; [apply repeat_length|]. intros e row Er. assert (In row (repeat (repeat (@None solvers) nFa) nEls)) by (eapply nth_error_In; eauto). apply repeat_spec in H. subst. apply repeat_length.
    + intros e i fa Hf. cbn. destruct Hf as (row & E & Ei). destruct WF as (_ & _ & L3 & _ & _ & W1 & _). destruct (W1 e row E) as (Lr & _). unfold get.
      assert (e < nEls) by (rewrite <- L3; apply nth_error_Some; congruence). assert (i < nFa) by (rewrite <- Lr; apply nth_error_Some; congruence).
      rewrite (nth_error_nth' _ []) by (rewrite repeat_length; lia).
      rewrite (nth_error_nth' _ None).
      * f_equal. clear - H H0. revert e H. induction nEls as [|n IH]; intros e H; [lia|]. destruct e; cbn; [apply nth_repeat|apply IH; lia].
      * clear - H H0. revert e H. induction nEls as [|n IH]; intros e H; [lia|]. destruct e; cbn; [now rewrite repeat_length|apply IH; lia].
  - intros k o Hk. apply initFace_ok. lia.
  - exists o. split; [exact E|]. split; [exact Sh|]. intros e i He Hi. destruct WF as (_ & _ & L3 & _ & _ & W1 & _).
    destruct (nth_error (iElFa I) e) as [row|] eqn:Er; [|apply nth_error_None in Er; lia]. destruct (W1 e row Er) as (Lr & _ & Hin). destruct (nth_error row i) as [fa|] eqn:Ef; [|apply nth_error_None in Ef; lia].
    specialize (Io e i fa ltac:(now exists row)). rewrite (proj2 (Nat.ltb_lt fa nFas)) in Io; [exact Io|]. apply Hin. now apply nth_error_In in Ef.
Qed.
End V.
