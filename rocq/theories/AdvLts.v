(** Schedules of local and neighbouring steps of the advection solver: the arrays hold the states of the scheme. *)
From Coq Require Import Ring.
From Verif Require Import Util MeshConn MatMul Props_Mat Sparse Lts Ader AderSpec AderV Props_Ader AdvK AdvKSpec AdvKV AderElSpec AderLtsSpec AdvLtsSpec AdvLtsV.
Local Open Scope nat_scope.

Section Run.
Context {T : Type}.
Variables (A : alg T) (cf : conf) (S_ : @advS T) (n_ : nat).
Variables (mesh : nat -> nat -> nbr) (lvl : nat -> nat) (dt hdt : nat -> nat -> T) (cross : nat -> nat -> bool).
Local Notation zero := (aZero A).
Local Notation add := (aAdd A).
Local Notation sub := (aSub A).
Local Notation nMd := (nModes (cEl cf) (cSp cf)).
Local Notation nFa := (nElFas (cEl cf)).
Local Notation nCr := (cCrs cf).
Local Notation rep1 := (rep1 A cf).
Local Notation rel := (relA mesh lvl).
Local Notation anyRel := (anyA cf mesh lvl).
Local Notation ready := (readyA cf n_ mesh lvl cross).
Local Notation schedule := (scheduleA cf n_ mesh lvl cross).
Local Notation filled := (filledA mesh lvl).
Local Notation used := (usedA mesh lvl).
Local Notation crosses := (crossA mesh cross).
Local Notation full := (fullA A cf S_ lvl dt).
Local Notation half := (halfA A cf S_ lvl hdt).
Local Notation data := (dataA A cf S_ mesh lvl dt hdt).
Local Notation ownA := (ownA A cf S_).
Add Ring TRL7 : (aRT A).
Local Opaque nModes nModesCk nQtsE nQtsM nDis nModesFa nElFas.

Variables (fl : ltsFlags) (M : advM) (chars : list N) (J : @advJ T) (mpi : bool).
Hypothesis HU : goodA cf S_ n_.
Hypothesis HJ : junkA cf J.
Hypothesis HM : meshA cf n_ mesh lvl cross M.
Hypothesis HC : charsA cf n_ mesh lvl fl chars.
(** without receive buffers, no face is shared with another partition *)
Hypothesis HP : mpi = false -> forall el fa, el < n_ -> fa < nFa -> crosses el fa = false.
Variable Q : nat -> nat -> nat -> nat -> T.
Hypothesis HQ : forall z, z < nCr -> forall el k y, el < n_ -> Q z el (S k) y = updateA A cf S_ mesh lvl dt hdt (Q z) el k y.

Lemma anyRel_in r el fa : fa < nFa -> rel el fa = r -> anyRel r el = true.
Proof. intros Hfa E. unfold anyA. apply existsb_exists. exists fa. split; [apply in_seq; lia|]. rewrite E. now destruct r. Qed.

(** sum of the integrals of the updates of a pair so far *)
Definition summed (el n : nat) : nat -> nat -> T := fun z y =>
  if Nat.even n then add (full (Q z) el (n - 2) y) (full (Q z) el (n - 1) y) else full (Q z) el (n - 1) y.

(** content of message m *)
Definition carries (el fa m : nat) (b : list (list T)) : Prop :=
  match rel el fa with
  | Eq => rep1 nMd (nth 0 b []) (fun z => full (Q z) el m)
  | Lt => rep1 nMd (nth 0 b []) (fun z y => add (full (Q z) el (2 * m) y) (full (Q z) el (2 * m + 1) y))
  | Gt => rep1 nMd (nth 0 b []) (fun z => half (Q z) el m) /\ rep1 nMd (nth 1 b []) (fun z y => sub (full (Q z) el m y) (half (Q z) el m y))
  end.

(** buffers of a face *)
Definition faceInv (L N : nat -> nat) (Se R : nat -> nat -> nat) (s : @advL T) (recv : list (@abuf T)) (net : @msgs T) (el fa : nat) : Prop :=
  match mesh el fa with
  | Next ne v f => if cross el fa then
      (Se el fa <= filled L el fa <= S (Se el fa)) /\ R el fa <= S (used N el fa) /\
      (exists b, nth_error (aS s) (at_ cf el fa) = Some (Some b) /\ bufA cf (rel el fa) b /\ (0 < filled L el fa -> carries el fa (filled L el fa - 1) b)) /\
      (exists b, nth_error recv (at_ cf el fa) = Some (Some b) /\ bufA cf (CompOpp (rel el fa)) b /\ (0 < R el fa -> carries ne f (R el fa - 1) b)) /\
      (exists q, nth_error net (at_ cf el fa) = Some q /\ length q + R el fa = Se ne f /\ forall i b, nth_error q i = Some b -> bufA cf (CompOpp (rel el fa)) b /\ carries ne f (R el fa + i) b)
    else nth_error (aS s) (at_ cf el fa) = Some None /\ nth_error recv (at_ cf el fa) = Some None /\
      match Nat.compare (lvl el) (lvl ne) with Eq => L el <= S (N ne) | Lt => L el <= 2 * N ne + 2 | Gt => 2 * L el <= N ne + 2 end
  | _ => nth_error (aS s) (at_ cf el fa) = Some None /\ nth_error recv (at_ cf el fa) = Some None
  end.
Definition Inv (L N : nat -> nat) (Se R : nat -> nat -> nat) (s : @advL T) (recv : list (@abuf T)) (net : @msgs T) : Prop := shapeA cf n_ s /\ (length recv = n_ * nFa /\ length net = n_ * nFa /\ forall el fa, el < n_ -> fa < nFa -> crosses el fa = false -> nth_error net (at_ cf el fa) = Some []) /\
  forall el, el < n_ ->
    (N el <= L el <= S (N el)) /\
    rep1 nMd (nth el (aQ s) []) (fun z y => if L el =? N el then Q z el (N el) y else add (Q z el (N el) y) (ownA el (full (Q z) el (N el)) y)) /\
    length (nth el (a0 s) []) = nMd * nCr /\ (0 < L el -> rep1 nMd (nth el (a0 s) []) (fun z => full (Q z) el (L el - 1))) /\
    (anyRel Lt el = true -> length (nth el (a1 s) []) = nMd * nCr /\ (0 < L el -> rep1 nMd (nth el (a1 s) []) (summed el (L el)))) /\
    (anyRel Gt el = true -> length (nth el (a2 s) []) = nMd * nCr /\ (0 < L el -> rep1 nMd (nth el (a2 s) []) (fun z => half (Q z) el (L el - 1)))) /\
    forall fa, fa < nFa -> faceInv L N Se R s recv net el fa.

Lemma rel_sym el fa ne v f v' fa' : mesh el fa = Next ne v f -> mesh ne f = Next el v' fa' -> rel ne f = CompOpp (rel el fa).
Proof. intros E1 E2. unfold relA. rewrite E1, E2. apply Nat.compare_antisym. Qed.
Lemma half_mono a b : a <= b -> a / 2 <= b / 2.
Proof. intros. apply Nat.div_le_mono; lia. Qed.
Lemma div2_even m : (2 * m) / 2 = m.
Proof. rewrite Nat.mul_comm. apply Nat.div_mul. lia. Qed.
Lemma div2_odd m : (2 * m + 1) / 2 = m.
Proof. rewrite Nat.add_comm, Nat.mul_comm, Nat.div_add by lia. reflexivity. Qed.

Lemma bump_in c first n el : first <= el < first + n -> bump c first n el = S (c el).
Proof. intros H. unfold bump. now rewrite (proj2 (Nat.leb_le _ _) (proj1 H)), (proj2 (Nat.ltb_lt _ _) (proj2 H)). Qed.
Lemma bump_out c first n el : ~ first <= el < first + n -> bump c first n el = c el.
Proof. intros H. unfold bump. destruct (Nat.leb_spec first el); [|reflexivity]. destruct (Nat.ltb_spec el (first + n)); [lia|reflexivity]. Qed.
Lemma bump_ge c first n el : c el <= bump c first n el.
Proof. unfold bump. destruct (_ && _); lia. Qed.
Lemma range_dec first n el : {first <= el < first + n} + {~ first <= el < first + n}.
Proof. destruct (le_lt_dec first el); [|right; lia]. destruct (le_lt_dec (first + n) el); [right|left]; lia. Qed.
Lemma even_S n : Nat.even (S n) = negb (Nat.even n).
Proof. rewrite Nat.even_succ, <- Nat.negb_even. reflexivity. Qed.
Lemma even_2 n : Nat.even n = true -> exists m, n = 2 * m.
Proof. intros H. apply Nat.even_spec in H. exact H. Qed.
Lemma even_2' n : Nat.even n = false -> exists m, n = 2 * m + 1.
Proof. intros H. rewrite <- Nat.negb_odd in H. apply negb_false_iff in H. apply Nat.odd_spec in H. exact H. Qed.

Lemma used_mono N first n el fa : used N el fa <= used (bump N first n) el fa.
Proof. unfold usedA. pose proof (bump_ge N first n el). destruct (rel el fa); auto using half_mono. Qed.
Lemma filled_eq L L' el fa : L' el = L el -> filled L' el fa = filled L el fa.
Proof. intros E. unfold filledA. now rewrite E. Qed.
Lemma at_inj el fa el' fa' : fa < nFa -> fa' < nFa -> at_ cf el fa = at_ cf el' fa' -> el = el' /\ fa = fa'.
Proof.
  intros H1 H2 E. unfold at_ in E. assert (el = el').
  { transitivity ((el * nFa + fa) / nFa); [apply Nat.div_unique with fa; lia|symmetry; apply Nat.div_unique with fa'; lia]. }
  subst. lia.
Qed.


Lemma filled_step L first n el fa : first <= el < first + n ->
  filled (bump L first n) el fa = match rel el fa with Lt => if Nat.even (L el) then filled L el fa else S (filled L el fa) | _ => S (filled L el fa) end.
Proof.
  intros H. unfold filledA. rewrite (bump_in _ _ _ _ H). destruct (rel el fa); try reflexivity. destruct (Nat.even (L el)) eqn:E.
  - destruct (even_2 _ E) as (m & ->). replace (S (2 * m)) with (2 * m + 1) by lia. now rewrite div2_odd, div2_even.
  - destruct (even_2' _ E) as (m & ->). replace (S (2 * m + 1)) with (2 * (m + 1)) by lia. rewrite div2_odd, div2_even. lia.
Qed.

Lemma run_local L N Se R s recv net lv first n k : Inv L N Se R s recv net -> ready L N Se R (ALocal lv first n k) ->
  exists s', runA1 A cf S_ mesh dt hdt fl M chars J mpi (ALocal lv first n k) (s, recv, net) = Ok (s', recv, net) /\ Inv (bump L first n) N Se R s' recv net.
Proof.
  intros (IS & IR & I) (Hn & HR). cbn [runA1]. assert (Hk : forall el, first <= el < first + n -> k = N el) by (intros el He; destruct (HR el He) as (_ & X & Y & _); congruence).
  remember (Nat.even k) as ft eqn:Hft0. assert (HR' : forall el, first <= el < first + n -> _) by exact HR. clear HR.
  assert (HR : forall el, first <= el < first + n -> lvl el = lv /\ L el = N el /\ ft = Nat.even (L el) /\ forall fa ne v f, fa < nFa -> mesh el fa = Next ne v f ->
        if cross el fa then rel el fa = Lt /\ Nat.even (L el) = true \/ filled L el fa <= Se el fa
        else match Nat.compare (lvl el) (lvl ne) with Eq => L el <= N ne | Lt => Nat.even (L el) = true -> L el <= 2 * N ne | Gt => 2 * L el <= N ne end).
  { intros el He. destruct (HR' el He) as (X1 & X2 & X3 & X4). split; [exact X1|]. split; [exact X2|]. split; [congruence|exact X4]. }
  clear HR' Hft0.
  destruct (localsA_ok A cf S_ n_ fl chars ft (dt lv k) (hdt lv k) J first n s rel (anyRel Lt) (anyRel Gt) (fun el z => Q z el (N el))
    (fun el => if ft then (fun z y => nth (pos nCr nMd 0 y z) (nth el (a1 s) []) zero) else summed el (L el)) HU HJ IS Hn) as (s' & E & S' & Same & Post).
  { intros el Hel. destruct (I el ltac:(lia)) as (Hc & Hh & H0 & _ & H1 & H2 & Hf). destruct (HR el Hel) as (Hlv & HLN & Hft & _). destruct (HC el ltac:(lia)) as (c & Ec & Ef & Es).
    unfold localPreA. split; [|split; [exact H0|split; [|split]]].
    - eapply rep1_ext; [exact Hh|]. intros z y _ _. cbv beta. rewrite HLN, Nat.eqb_refl. reflexivity.
    - destruct (anyRel Lt el) eqn:Ey; [|exact Logic.I]. destruct (H1 eq_refl) as (Ll & Rl). rewrite Hft. destruct (Nat.even (L el)) eqn:Ev; [now apply rep1_any|].
      apply Rl. destruct (L el); [discriminate|lia].
    - destruct (anyRel Gt el); [exact (proj1 (H2 eq_refl))|exact Logic.I].
    - exists c. split; [exact Ec|]. split; [exact Ef|]. intros fa b Hfa Eb. specialize (Hf fa Hfa). unfold faceInv in Hf. destruct (HM el fa ltac:(lia) Hfa) as (fid & ch & _ & _ & Hm).
      destruct (mesh el fa) as [|ne v f] eqn:Em; [destruct Hf; congruence|]. destruct (cross el fa) eqn:Ecr; [|destruct Hf; congruence].
      destruct Hf as (_ & _ & (b0 & Eb0 & Ob & _) & _). rewrite Eb in Eb0. injection Eb0 as <-. split; [now apply Es|]. split; [exact Ob|].
      split; [intros X; now apply (anyRel_in Lt el fa)|intros X; now apply (anyRel_in Gt el fa)]. }
  exists s'. rewrite E. cbn [bind]. split; [reflexivity|]. split; [exact S'|]. split; [exact IR|].
  intros el Hel. destruct (I el Hel) as (Hc & Hh & H0 & R0 & H1 & H2 & Hd).
  assert (HF : forall fa, fa < nFa -> faceInv (bump L first n) N Se R s' recv net el fa).
  { intros fa Hfa. specialize (Hd fa Hfa). unfold faceInv in *. destruct (HM el fa Hel Hfa) as (fid & ch & _ & _ & Hm).
    assert (HNo : nth_error (aS s) (at_ cf el fa) = Some None -> nth_error (aS s') (at_ cf el fa) = Some None).
    { intros E0. destruct (range_dec first n el) as [Rg|Rg].
      - destruct (Post el Rg) as (_ & _ & _ & _ & P). specialize (P fa Hfa). now rewrite E0 in P.
      - destruct (Same el Rg) as (_ & _ & _ & _ & P). now rewrite (P fa Hfa). }
    destruct (mesh el fa) as [|ne v f] eqn:Em; [destruct Hd; auto|]. destruct Hm as (_ & Hv & _ & _ & Hne & Hlf & Hcr & _ & (v1 & Hs) & Hm).
    destruct (cross el fa) eqn:Ecr.
    - destruct Hd as (D1 & D2 & (b & Eb & Ob & Cb) & D4). split; [|split; [exact D2|split; [|exact D4]]].
      + destruct (range_dec first n el) as [Rg|Rg]; [|now rewrite (filled_eq L (bump L first n)) by now apply bump_out].
        destruct (HR el Rg) as (_ & _ & Hft & Hg). specialize (Hg fa ne v f Hfa Em). rewrite Ecr in Hg. rewrite (filled_step L _ _ _ _ Rg).
        destruct (rel el fa) eqn:Er; [destruct Hg as [(X & _)|Hg]; [discriminate|lia]| |destruct Hg as [(X & _)|Hg]; [discriminate|lia]].
        destruct (Nat.even (L el)); [exact D1|]. destruct Hg as [(_ & X)|Hg]; [congruence|lia].
      + destruct (range_dec first n el) as [Rg|Rg].
        * destruct (Post el Rg) as (_ & _ & _ & _ & P). specialize (P fa Hfa). rewrite Eb in P. destruct P as (b' & Eb' & Ob' & Sn). exists b'. split; [exact Eb'|]. split; [exact Ob'|]. intros Hpos.
          destruct (HR el Rg) as (Hlv & HLN & Hft & _). rewrite (filled_step L _ _ _ _ Rg) in Hpos |- *.
          rewrite <- Hlv, (Hk el Rg) in Sn.
          unfold carries. assert (HLf : rel el fa <> Lt -> filled L el fa = N el) by (intros X; unfold filledA; rewrite <- HLN; destruct (rel el fa); congruence).
          destruct (rel el fa) eqn:Er.
          -- rewrite HLf by congruence. replace (S (N el) - 1) with (N el) by lia. exact Sn.
          -- rewrite <- Hft. destruct ft.
             ++ subst b'. clear HLf. unfold carries in Cb. rewrite Er in Cb. apply Cb. rewrite <- Hft in Hpos. exact Hpos.
             ++ assert (Ev' := eq_sym Hft). apply even_2' in Ev'. destruct Ev' as (m & Em').
                assert (Hfl : filled L el fa = m) by (unfold filledA; rewrite Er, Em'; apply div2_odd). rewrite Hfl. replace (S m - 1) with m by lia.
                eapply rep1_ext; [exact Sn|]. intros z y _ _. cbv beta. unfold summed. rewrite <- Hft. f_equal.
                ** now replace (L el - 1) with (2 * m) by lia.
                ** replace (2 * m + 1) with (N el) by lia. reflexivity.
          -- rewrite HLf by congruence. replace (S (N el) - 1) with (N el) by lia. exact Sn.
        * destruct (Same el Rg) as (_ & _ & _ & _ & P). rewrite (P fa Hfa). exists b. rewrite (filled_eq L (bump L first n)) by now apply bump_out. auto.
    - destruct Hd as (D1 & D2 & D3). split; [auto|]. split; [auto|]. destruct (range_dec first n el) as [Rg|Rg].
      + rewrite bump_in by auto. destruct (HR el Rg) as (Hlv & HLN & Hft & Hg). specialize (Hg fa ne v f Hfa Em). rewrite Ecr in Hg. destruct (Nat.compare (lvl el) (lvl ne)); [lia| |lia].
        destruct (Nat.even (L el)) eqn:Ev; [specialize (Hg eq_refl); lia|]. apply even_2' in Ev. destruct Ev as (m & Ev). lia.
      + now rewrite bump_out by auto. }
  destruct (range_dec first n el) as [Rg|Rg].
  - destruct (HR el Rg) as (Hlv & HLN & Hft & Hg). destruct (Post el Rg) as (P1 & P2 & P3 & P4 & _). rewrite (bump_in _ _ _ _ Rg). rewrite <- Hlv, (Hk el Rg) in P1, P2, P3, P4.
    split; [lia|]. split; [|split; [|split; [|split; [|split; [|exact HF]]]]].
    + destruct (Nat.eqb_spec (S (L el)) (N el)); [lia|]. exact P1.
    + exact (rep1_len _ _ _ _ _ P2).
    + intros _. replace (S (L el) - 1) with (N el) by lia. exact P2.
    + intros Ey. rewrite Ey in P3. split; [exact (rep1_len _ _ _ _ _ P3)|]. intros _. eapply rep1_ext; [exact P3|]. intros z y _ _. cbv beta. unfold summed. rewrite even_S, Hft.
      destruct (Nat.even (L el)) eqn:Ev; cbn [negb].
      * replace (S (L el) - 1) with (N el) by lia. unfold fullA. ring.
      * replace (S (L el) - 2) with (L el - 1) by lia. replace (S (L el) - 1) with (N el) by lia. unfold fullA. reflexivity.
    + intros Ey. rewrite Ey in P4. split; [exact (rep1_len _ _ _ _ _ P4)|]. intros _. replace (S (L el) - 1) with (N el) by lia. exact P4.
  - destruct (Same el Rg) as (E1 & E2 & E3 & E4 & _). rewrite (bump_out _ _ _ _ Rg), E1, E2, E3, E4. auto 10.
Qed.

Lemma run_neigh L N Se R s recv net lv first n k : Inv L N Se R s recv net -> ready L N Se R (ANeigh lv first n k) ->
  exists s', runA1 A cf S_ mesh dt hdt fl M chars J mpi (ANeigh lv first n k) (s, recv, net) = Ok (s', recv, net) /\ Inv L (bump N first n) Se R s' recv net.
Proof.
  intros (IS & IR & I) (Hn & HR). assert (IS' := IS). destruct IS' as (L1 & L2 & L3 & L4 & L5). cbn [runA1].
  destruct (neighA_ok A cf S_ n_ fl M chars (Nat.even k) (a0 s) (a1 s) (a2 s) (if mpi then Some recv else None) J first n (aQ s) (matA cf mesh) (fun el fa z => data (Q z) el fa (N el))
    (fun el z y => add (Q z el (N el) y) (ownA el (full (Q z) el (N el)) y)) HU HJ Hn L1) as (dQ & E & D1 & Same & Post).
  { intros el Hel. destruct (I el ltac:(lia)) as (Hc & Hh & H0 & R0 & _ & _ & Hd). destruct (HR el Hel) as (Hlv & HLN & Hft & Hg). split.
    2: { eapply rep1_ext; [exact Hh|]. intros z y _ _. cbv beta. destruct (Nat.eqb_spec (L el) (N el)); [lia|]. reflexivity. }
    destruct (HC el ltac:(lia)) as (c & Ec & _ & Es). exists c. split; [exact Ec|]. intros fa Hfa. destruct (HM el fa ltac:(lia) Hfa) as (fid & ch & Hfid & Hch & Hm).
    specialize (Es fa Hfa). specialize (Hd fa Hfa). specialize (Hg fa). unfold faceInv in Hd. unfold matA, dataA. exists fid, ch.
    assert (Hno : nth_error recv (at_ cf el fa) = Some None -> match (if mpi then Some recv else None) with None => @None (list (list T)) = None | Some l => nth_error l (at_ cf el fa) = Some None end) by (intros X; destruct mpi; auto).
    destruct (mesh el fa) as [|ne v f] eqn:Em.
    - exists Eq, None. split; [exact Hfid|]. split; [exact Hch|]. split; [unfold relA in Es; now rewrite Em in Es|]. split; [now apply Hno|]. rewrite Hm. split; [reflexivity|]. split; [reflexivity|]. split; [reflexivity|].
      unfold bufDataA. split; [lia|]. split; [lia|]. split; [lia|]. specialize (R0 ltac:(lia)). replace (L el - 1) with (N el) in R0 by lia. exact R0.
    - destruct Hm as (Ho & H4 & H5 & H6 & H7 & H8 & Hcr & Hl & (v' & Hs) & Hm). specialize (Hg ne v f Hfa eq_refl).
      assert (Hrel' : rel el fa = Nat.compare (lvl el) (lvl ne)) by (unfold relA; now rewrite Em).
      destruct (I ne H7) as (Gc & _ & G0 & GR0 & G1 & G2 & Gd). specialize (Gd f H8).
      destruct (cross el fa) eqn:Ecr.
      + destruct Hd as (C1 & C2 & _ & (b & Eb & Ob & Cb) & _). exists (rel el fa), (Some b). split; [exact Hfid|]. split; [exact Hch|]. split; [exact Es|]. split.
        { destruct mpi; [exact Eb|]. exfalso. specialize (HP eq_refl el fa ltac:(lia) Hfa). unfold crossA in HP. rewrite Em in HP. congruence. }
        rewrite Ho. exists v, f. do 4 (split; [assumption || reflexivity|]). split; [exact Ob|]. split; [exact Hm|]. rewrite <- Hrel'.
        unfold carries in Cb. rewrite (rel_sym _ _ _ _ _ _ _ Em Hs) in Cb. unfold usedA in C2.
        destruct (rel el fa) eqn:Er; cbn [CompOpp] in Cb; specialize (Cb ltac:(lia)).
        * replace (R el fa - 1) with (N el) in Cb by lia. exact Cb.
        * assert (Ek : R el fa - 1 = N el / 2).
          { assert (Hlo : N el / 2 < R el fa) by (apply Nat.div_lt_upper_bound; lia). clear - Hlo C2. revert Hlo C2. generalize (N el / 2). intros; lia. }
          rewrite Ek in Cb. destruct Cb as (Ca & Cb). rewrite Hft. destruct (Nat.even (N el)); [exact Ca|exact Cb].
        * replace (R el fa - 1) with (N el) in Cb by lia. exact Cb.
      + destruct Hd as (_ & Hnr & _). exists (Nat.compare (lvl el) (lvl ne)), None. split; [exact Hfid|]. split; [exact Hch|]. split; [now rewrite <- Hrel'|]. split; [now apply Hno|].
        rewrite Ho. exists v, f. do 4 (split; [assumption || reflexivity|]). exists ne. split; [exact Hm|].
        unfold faceInv in Gd. rewrite Hs, Hcr in Gd. destruct Gd as (_ & _ & Gd).
        unfold bufDataA. split; [lia|]. split; [lia|]. split; [lia|].
        assert (Hrel : relA mesh lvl ne f = Nat.compare (lvl ne) (lvl el)) by (unfold relA; now rewrite Hs).
        destruct (Nat.compare_spec (lvl el) (lvl ne)) as [C|C|C].
        * rewrite C, Nat.compare_refl in Gd. specialize (GR0 ltac:(lia)). replace (L ne - 1) with (N el) in GR0 by lia. exact GR0.
        * rewrite (proj2 (Nat.compare_gt_iff _ _) C) in Gd. rewrite (proj2 (Nat.compare_gt_iff _ _) C) in Hrel. destruct (G2 (anyRel_in Gt ne f H8 Hrel)) as (_ & GR2).
          specialize (GR0 ltac:(lia)). specialize (GR2 ltac:(lia)).
          assert (Ek : L ne - 1 = N el / 2).
          { assert (Hlo : N el / 2 < L ne) by (apply Nat.div_lt_upper_bound; lia). assert (Hup : L ne - 1 <= N el / 2) by (apply Nat.div_le_lower_bound; lia). clear - Hlo Hup. revert Hlo Hup. generalize (N el / 2). intros; lia. }
          rewrite Ek in GR0, GR2. rewrite Hft. destruct (Nat.even (N el)); [exact GR2|]. eexists _, _. split; [exact GR0|]. split; [exact GR2|]. reflexivity.
        * rewrite (proj2 (Nat.compare_lt_iff _ _) C) in Gd. rewrite (proj2 (Nat.compare_lt_iff _ _) C) in Hrel. destruct (G1 (anyRel_in Lt ne f H8 Hrel)) as (_ & GR1).
          specialize (GR1 ltac:(lia)). assert (Ek : L ne = 2 * N el + 2) by lia. rewrite Ek in GR1. eapply rep1_ext; [exact GR1|]. intros z y _ _. unfold summed.
          replace (Nat.even (2 * N el + 2)) with true by (symmetry; apply Nat.even_spec; exists (N el + 1); lia). replace (2 * N el + 2 - 2) with (2 * N el) by lia. now replace (2 * N el + 2 - 1) with (2 * N el + 1) by lia. }
  rewrite E. cbn [bind]. eexists. split; [reflexivity|]. split; [|split; [exact IR|]].
  { unfold shapeA. cbn [aQ a0 a1 a2 aS]. auto. }
  cbn [aQ a0 a1 a2 aS]. intros el Hel. destruct (I el Hel) as (Hc & Hh & H0 & R0 & H1 & H2 & Hd). split; [|split; [|split; [exact H0|split; [exact R0|split; [exact H1|split; [exact H2|]]]]]].
  - destruct (range_dec first n el) as [Rg|Rg]; [rewrite bump_in by auto; destruct (HR el Rg) as (_ & X & _); lia|rewrite bump_out by auto; lia].
  - destruct (range_dec first n el) as [Rg|Rg].
    + rewrite bump_in by auto. destruct (HR el Rg) as (_ & X & _). rewrite X, Nat.eqb_refl. eapply rep1_ext; [exact (Post el Rg)|]. intros z y Hz _. rewrite (HQ z Hz el (N el) y Hel). reflexivity.
    + rewrite bump_out by auto. rewrite (Same el Rg). exact Hh.
  - intros fa Hfa. specialize (Hd fa Hfa). unfold faceInv in *. cbn [aS]. destruct (mesh el fa) as [|ne v f]; [exact Hd|]. destruct (cross el fa).
    + destruct Hd as (X1 & X2 & X3). split; [exact X1|]. split; [|exact X3]. pose proof (used_mono N first n el fa). lia.
    + destruct Hd as (X1 & X2 & X3). split; [exact X1|]. split; [exact X2|]. pose proof (bump_ge N first n ne). destruct (Nat.compare (lvl el) (lvl ne)); lia.
Qed.

Lemma at_lt el fa : el < n_ -> fa < nFa -> at_ cf el fa < n_ * nFa.
Proof. intros H1 H2. unfold at_. apply Nat.lt_le_trans with (el * nFa + nFa); [lia|]. replace (el * nFa + nFa) with (S el * nFa) by lia. apply Nat.mul_le_mono_r. lia. Qed.
Lemma bump2_eq R el fa : bump2 R el fa el fa = S (R el fa).
Proof. unfold bump2. now rewrite !Nat.eqb_refl. Qed.
Lemma bump2_ne R el fa el' fa' : at_ cf el fa <> at_ cf el' fa' -> bump2 R el fa el' fa' = R el' fa'.
Proof. intros N. unfold bump2. destruct (Nat.eqb_spec el' el) as [->|]; [|reflexivity]. destruct (Nat.eqb_spec fa' fa) as [->|]; [congruence|reflexivity]. Qed.
Lemma cross_back el fa ne v f : el < n_ -> fa < nFa -> cross el fa = true -> mesh el fa = Next ne v f -> ne < n_ /\ f < nFa /\ cross ne f = true /\ exists v', mesh ne f = Next el v' fa.
Proof. intros Hel Hfa Hcr Em. destruct (HM el fa Hel Hfa) as (fid & ch & _ & _ & Hm). rewrite Em, Hcr in Hm. destruct Hm as (_ & _ & _ & _ & Hne & Hf & Hcr' & _ & Hs & _). rewrite Hcr'. auto. Qed.

Lemma run_send L N Se R s recv net el fa : Inv L N Se R s recv net -> ready L N Se R (ASend el fa) ->
  exists net', runA1 A cf S_ mesh dt hdt fl M chars J mpi (ASend el fa) (s, recv, net) = Ok (s, recv, net') /\ Inv L N (bump2 Se el fa) R s recv net'.
Proof.
  intros (IS & (IR & IN & IE) & I) (Hel & Hfa & Hcr & (ne & v & f & Em) & G1). cbn [runA1]. rewrite Em. destruct (cross_back el fa ne v f Hel Hfa Hcr Em) as (Hne & Hf & Hcr' & vb & Hs).
  destruct (I el Hel) as (_ & _ & _ & _ & _ & _ & Dn). specialize (Dn fa Hfa). unfold faceInv in Dn. rewrite Em, Hcr in Dn. destruct Dn as (D1 & _ & (b & Eb & Ob & Cb) & _ & _).
  rewrite (rd_some _ _ _ Eb). cbn [bind]. destruct (I ne Hne) as (_ & _ & _ & _ & _ & _ & Dq). specialize (Dq f Hf). unfold faceInv in Dq. rewrite Hs, Hcr' in Dq. destruct Dq as (_ & _ & _ & _ & (q & Eq & Lq & Cq)).
  rewrite (rd_some _ _ _ Eq). cbn [bind]. rewrite wr_ok by (rewrite IN; now apply at_lt). cbn [bind]. eexists. split; [reflexivity|]. split; [exact IS|]. split.
  { split; [exact IR|]. split; [now rewrite length_upd|]. intros el' fa' Hel' Hfa' Hcr2. rewrite nth_error_upd_ne; [now apply IE|]. intros Ea. destruct (at_inj _ _ _ _ Hf Hfa' Ea) as (<- & <-). unfold crossA in Hcr2. rewrite Hs in Hcr2. congruence. }
  intros el' Hel'. destruct (I el' Hel') as (Hc & Hh & H0 & R0 & H1 & H2 & Hd). split; [exact Hc|]. split; [exact Hh|]. split; [exact H0|]. split; [exact R0|]. split; [exact H1|]. split; [exact H2|].
  intros fa' Hfa'. specialize (Hd fa' Hfa'). unfold faceInv in *. destruct (mesh el' fa') as [|ne' v' f'] eqn:Em'; [exact Hd|]. destruct (cross el' fa') eqn:Ec'; [|exact Hd].
  destruct (cross_back el' fa' ne' v' f' Hel' Hfa' Ec' Em') as (Hne' & Hf' & Hcr'' & vc & Hs'). destruct Hd as (X1 & X2 & X3 & X4 & (q' & Eq' & Lq' & Cq')).
  split; [|split; [exact X2|split; [exact X3|split; [exact X4|]]]].
  - destruct (Nat.eq_dec (at_ cf el fa) (at_ cf el' fa')) as [Ea|Ea].
    + destruct (at_inj _ _ _ _ Hfa Hfa' Ea) as (<- & <-). rewrite bump2_eq. lia.
    + now rewrite bump2_ne.
  - destruct (Nat.eq_dec (at_ cf ne f) (at_ cf el' fa')) as [Ea|Ea].
    + destruct (at_inj _ _ _ _ Hf Hfa' Ea) as (<- & <-). rewrite Hs in Em'. injection Em' as <- _ <-. rewrite Eq in Eq'. injection Eq' as <-. exists (q ++ [b]).
      split; [apply nth_error_upd_eq; rewrite IN; now apply at_lt|]. rewrite bump2_eq, app_length. cbn [length]. split; [lia|]. intros i b' Eb'. destruct (Nat.lt_ge_cases i (length q)) as [Hi|Hi].
      * rewrite nth_error_app1 in Eb' by auto. now apply Cq.
      * rewrite nth_error_app2 in Eb' by auto. destruct (i - length q) as [|j] eqn:Ej; [|cbn in Eb'; destruct j; discriminate]. cbn in Eb'. injection Eb' as <-.
        split; [now rewrite (rel_sym _ _ _ _ _ _ _ Em Hs), CompOpp_involutive|]. replace (R ne f + i) with (filled L el fa - 1) by lia. apply Cb. lia.
    + rewrite nth_error_upd_ne by auto. exists q'. split; [exact Eq'|]. split; [|exact Cq']. rewrite bump2_ne; [exact Lq'|]. intros Ea'. apply Ea. destruct (at_inj _ _ _ _ Hfa Hf' Ea') as (<- & <-).
      rewrite Em in Hs'. injection Hs' as -> _ ->. reflexivity.
Qed.

Lemma run_recv L N Se R s recv net el fa : Inv L N Se R s recv net -> ready L N Se R (ARecv el fa) ->
  exists recv' net', runA1 A cf S_ mesh dt hdt fl M chars J mpi (ARecv el fa) (s, recv, net) = Ok (s, recv', net') /\ Inv L N Se (bump2 R el fa) s recv' net'.
Proof.
  intros (IS & (IR & IN & IE) & I) (Hel & Hfa & Hcr & ne & v & f & Em & G1 & G2). cbn [runA1].
  destruct (I el Hel) as (_ & _ & _ & _ & _ & _ & Dq). specialize (Dq fa Hfa). unfold faceInv in Dq. rewrite Em, Hcr in Dq. destruct Dq as (_ & _ & _ & _ & (q & Eq & Lq & Cq)).
  rewrite (rd_some _ _ _ Eq). cbn [bind]. destruct q as [|b q]; [cbn [length] in Lq; lia|]. cbn [length] in Lq. rewrite wr_ok by (rewrite IR; now apply at_lt). cbn [bind]. rewrite wr_ok by (rewrite IN; now apply at_lt). cbn [bind].
  eexists _, _. split; [reflexivity|]. split; [exact IS|]. split.
  { split; [now rewrite length_upd|]. split; [now rewrite length_upd|]. intros el' fa' Hel' Hfa' Hcr2. rewrite nth_error_upd_ne; [now apply IE|]. intros Ea. destruct (at_inj _ _ _ _ Hfa Hfa' Ea) as (<- & <-). unfold crossA in Hcr2. rewrite Em in Hcr2. congruence. }
  intros el' Hel'. destruct (I el' Hel') as (Hc & Hh & H0 & R0 & H1 & H2 & Hd). split; [exact Hc|]. split; [exact Hh|]. split; [exact H0|]. split; [exact R0|]. split; [exact H1|]. split; [exact H2|].
  intros fa' Hfa'. specialize (Hd fa' Hfa'). unfold faceInv in *. destruct (Nat.eq_dec (at_ cf el fa) (at_ cf el' fa')) as [Ea|Ea].
  - destruct (at_inj _ _ _ _ Hfa Hfa' Ea) as (<- & <-). rewrite Em, Hcr in Hd |- *. destruct Hd as (X1 & X2 & X3 & _ & _). rewrite bump2_eq.
    destruct (Cq 0 b eq_refl) as (Cb1 & Cb2). split; [exact X1|]. split; [lia|]. split; [exact X3|]. split.
    + exists b. split; [apply nth_error_upd_eq; rewrite IR; now apply at_lt|]. split; [exact Cb1|]. intros _. replace (S (R el fa) - 1) with (R el fa + 0) by lia. exact Cb2.
    + exists q. split; [apply nth_error_upd_eq; rewrite IN; now apply at_lt|]. split; [lia|]. intros i b' Eb'. replace (S (R el fa) + i) with (R el fa + S i) by lia. now apply Cq.
  - rewrite !nth_error_upd_ne by auto. rewrite bump2_ne by auto. exact Hd.
Qed.

Local Notation runOps := (runA A cf S_ mesh dt hdt fl M chars J mpi).
Lemma runOps_app ops ops' s : runOps (ops ++ ops') s = (s <- runOps ops s;; runOps ops' s).
Proof. revert s. induction ops as [|op ops IH]; intros s; [reflexivity|]. cbn [app runA]. destruct (runA1 _ _ _ _ _ _ _ _ _ _ _ op s); [cbn [bind]; apply IH|reflexivity]. Qed.

Lemma run_schedule ops L N Se R s0 recv0 net0 : schedule ops L N Se R -> Inv (fun _ => 0) (fun _ => 0) (fun _ _ => 0) (fun _ _ => 0) s0 recv0 net0 ->
  exists s recv net, runOps ops (s0, recv0, net0) = Ok (s, recv, net) /\ Inv L N Se R s recv net.
Proof.
  intros S I0. induction S as [|ops L N Se R lv first n k S IH G|ops L N Se R lv first n k S IH G|ops L N Se R el fa S IH G|ops L N Se R el fa S IH G].
  - exists s0, recv0, net0. split; [reflexivity|exact I0].
  - destruct IH as (s & recv & net & E & I). destruct (run_local L N Se R s recv net lv first n k I G) as (s' & E' & I'). exists s', recv, net. split; [|exact I']. rewrite runOps_app, E. cbn [bind runA]. rewrite E'. reflexivity.
  - destruct IH as (s & recv & net & E & I). destruct (run_neigh L N Se R s recv net lv first n k I G) as (s' & E' & I'). exists s', recv, net. split; [|exact I']. rewrite runOps_app, E. cbn [bind runA]. rewrite E'. reflexivity.
  - destruct IH as (s & recv & net & E & I). destruct (run_send L N Se R s recv net el fa I G) as (net' & E' & I'). exists s, recv, net'. split; [|exact I']. rewrite runOps_app, E. cbn [bind runA]. rewrite E'. reflexivity.
  - destruct IH as (s & recv & net & E & I). destruct (run_recv L N Se R s recv net el fa I G) as (recv' & net' & E' & I'). exists s, recv', net'. split; [|exact I']. rewrite runOps_app, E. cbn [bind runA]. rewrite E'. reflexivity.
Qed.

Lemma initial_inv q0 s recv net : initialA A cf n_ mesh lvl cross q0 s recv net -> (forall z el y, z < nCr -> el < n_ -> Q z el 0 y = q0 z el y) ->
  Inv (fun _ => 0) (fun _ => 0) (fun _ _ => 0) (fun _ _ => 0) s recv net.
Proof.
  intros (H1 & H2 & -> & H3) H0. split; [exact H1|]. split; [split; [exact H2|]; split; [apply repeat_length|]; intros; apply nth_error_repeat; now apply at_lt|]. intros el Hel. destruct (H3 el Hel) as (P1 & P2 & P3 & P4 & P5). split; [lia|]. split; [|split; [exact P2|split; [lia|split; [|split]]]].
  - eapply rep1_ext; [exact P1|]. intros z y Hz _. cbv beta. cbn [Nat.eqb]. now rewrite H0.
  - intros E. split; [auto|lia].
  - intros E. split; [auto|lia].
  - intros fa Hfa. specialize (P5 fa Hfa). unfold faceInv. unfold crossA in P5. destruct (mesh el fa) as [|ne v f]; [exact P5|]. destruct (cross el fa).
    + assert (F0 : forall e g, filled (fun _ => 0) e g = 0) by (intros; unfold filledA; destruct (rel e g); reflexivity).
      destruct P5 as (b & b' & E1 & O1 & E2 & O2). rewrite !F0. split; [lia|]. split; [lia|]. split; [|split]; [exists b|exists b'|exists []]; try (split; [assumption|split; [assumption|lia]]).
      split; [apply nth_error_repeat; now apply at_lt|]. split; [reflexivity|]. intros i b0 X. destruct i; discriminate.
    + destruct P5 as (E1 & E2). split; [exact E1|]. split; [exact E2|]. destruct (Nat.compare _ _); lia.
Qed.

(** all updates finished, all messages received: the arrays are ready for the next interval *)
Lemma inv_initial L N Se R s recv net : Inv L N Se R s recv net -> (forall el, el < n_ -> L el = N el) ->
  (forall el fa ne v f, el < n_ -> fa < nFa -> mesh el fa = Next ne v f -> cross el fa = true -> Se el fa = R ne f) ->
  initialA A cf n_ mesh lvl cross (fun z el => Q z el (N el)) s recv net.
Proof.
  intros (IS & (IR & IN & IE) & I) HL HR.
  assert (HE : forall el fa, el < n_ -> fa < nFa -> nth_error net (at_ cf el fa) = Some []).
  { intros el fa Hel Hfa. destruct (crosses el fa) eqn:Ec; [|now apply IE]. destruct (I el Hel) as (_ & _ & _ & _ & _ & _ & D). specialize (D fa Hfa). unfold faceInv in D. unfold crossA in Ec. destruct (mesh el fa) as [|ne v f] eqn:Em; [discriminate|].
    rewrite Ec in D. destruct D as (_ & _ & _ & _ & (q & Eq & Lq & _)). destruct (cross_back el fa ne v f Hel Hfa Ec Em) as (Hne & Hf & Hcr' & vb & Hs). rewrite (HR ne f el vb fa Hne Hf Hs Hcr') in Lq. destruct q as [|b q]; [exact Eq|cbn [length] in Lq; lia]. }
  split; [exact IS|]. split; [exact IR|]. split.
  { apply nth_ext with (d := []) (d' := []); [now rewrite repeat_length|]. intros i Hi. rewrite nth_repeat. rewrite IN in Hi. assert (Pn : nFa <> 0) by (intros X; rewrite X in Hi; lia).
    assert (E1 := Nat.div_mod i nFa Pn). assert (B := Nat.mod_upper_bound i nFa Pn). assert (B' : i / nFa < n_) by (apply Nat.div_lt_upper_bound; lia).
    specialize (HE (i / nFa) (i mod nFa) B' B). unfold at_ in HE. replace (i / nFa * nFa + i mod nFa) with i in HE by (rewrite Nat.mul_comm; exact E1). now apply nth_error_nth. }
  intros el Hel. destruct (I el Hel) as (_ & Hh & H0 & _ & H1 & H2 & D). split; [|split; [exact H0|split; [|split]]].
  - eapply rep1_ext; [exact Hh|]. intros z y _ _. cbv beta. rewrite (HL el Hel), Nat.eqb_refl. reflexivity.
  - intros E. exact (proj1 (H1 E)).
  - intros E. exact (proj1 (H2 E)).
  - intros fa Hfa. specialize (D fa Hfa). unfold faceInv in D. unfold crossA. destruct (mesh el fa) as [|ne v f]; [exact D|]. destruct (cross el fa).
    + destruct D as (_ & _ & (b & E1 & O1 & _) & (b' & E2 & O2 & _) & _). exists b, b'. auto.
    + destruct D as (E1 & E2 & _). auto.
Qed.
End Run.
