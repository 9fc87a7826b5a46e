(** Schedules of local and neighbouring steps: the arrays hold the states of the local time stepping scheme. *)
From Coq Require Import Ring.
From Verif Require Import Util MeshConn MatMul Props_Mat Sparse Lts Ader AderSpec AderV Props_Ader AderEl AderElSpec AderElV AderLtsSpec.
Local Open Scope nat_scope.

Section Run.
Context {T : Type}.
Variables (A : alg T) (cf : conf) (U : @setup T).
Variables (mesh : nat -> nat -> face) (lvl : nat -> nat) (dt hdt : nat -> nat -> T) (cross : nat -> nat -> bool).
Local Notation zero := (aZero A).
Local Notation add := (aAdd A).
Local Notation sub := (aSub A).
Local Notation nMd := (nModes (cEl cf) (cSp cf)).
Local Notation nMdFa := (nModesFa (cEl cf) (cSp cf)).
Local Notation nFa := (nElFas (cEl cf)).
Local Notation nE := (nQtsE (cEl cf)).
Local Notation nM := (nQtsM (cEl cf)).
Local Notation nCr := (cCrs cf).
Local Notation nRm := (cRms cf).
Local Notation state := (@state T).
Local Notation rep := (rep A cf).
Local Notation holds := (holds A cf).
Local Notation rel := (rel mesh lvl).
Local Notation anyRel := (anyRel cf mesh lvl).
Local Notation ready := (@ready T cf U mesh lvl cross).
Local Notation schedule := (schedule cf U mesh lvl cross).
Local Notation filled := (filled mesh lvl).
Local Notation used := (used mesh lvl).
Local Notation crosses := (crosses mesh cross).
Local Notation faceInt := (faceInt A cf).
Local Notation full := (full A cf U lvl dt).
Local Notation half := (half A cf U lvl hdt).
Local Notation data := (data A cf U mesh lvl dt hdt).
Add Ring TR7 : (aRT A).
Local Opaque nModes nModesCk nQtsE nQtsM nDis nModesFa nElFas.

Variables (K : @kernels T) (fl : ltsFlags) (M : adj) (chars : list N) (J : @junk T) (mpi : bool).
Hypothesis HU : good A cf U.
Hypothesis HK : kernelsOf A cf U = Ok K.
Hypothesis HJ : junkOk cf J.
Hypothesis HM : meshOk cf U mesh lvl cross M.
Hypothesis HC : charsOk cf U mesh lvl fl chars.
Hypothesis HV : length (aVId M) = uN U.
Hypothesis HP : mpi = false -> forall el fa, el < uN U -> fa < nFa -> crosses el fa = false.
Variable Q : nat -> nat -> nat -> state.
Hypothesis HQ : forall z, z < nCr -> forall el k, el < uN U -> eqSt (Q z el (S k)) (update A cf U mesh lvl dt hdt (Q z) el k).

Lemma holds_ext lE lA (f g : nat -> state) : holds lE lA f -> (forall z, z < nCr -> eqSt (f z) (g z)) -> holds lE lA g.
Proof.
  intros (H1 & H2 & H3) E. split; [|split; [exact H2|]].
  - eapply rep_ext; [exact H1|]. intros z x y Hz _ _. apply (E z Hz).
  - intros rm Hrm. eapply rep_ext; [exact (H3 rm Hrm)|]. intros z x y Hz _ _. apply (E z Hz).
Qed.

Lemma anyRel_in r el fa : fa < nFa -> rel el fa = r -> anyRel r el = true.
Proof. intros Hfa E. unfold AderLtsSpec.anyRel. apply existsb_exists. exists fa. split; [apply in_seq; lia|]. rewrite E. now destruct r. Qed.

(** sum of the integrals of the updates of a pair so far *)
Definition summed (el n : nat) : nat -> nat -> nat -> T := fun z x y =>
  if Nat.even n then add (full (Q z) el (n - 2) x y) (full (Q z) el (n - 1) x y) else full (Q z) el (n - 1) x y.

(** matrix of the projection of an element's data for the element behind the face; content of message m *)
Definition sendMat (el fa : nat) : list T := match mesh el fa with Inner _ v _ => nth (nFa + (v * nFa + fa)) (uLN U) [] | _ => [] end.
Definition carries (el fa m : nat) (b : list (list T)) : Prop :=
  match rel el fa with
  | Eq => rep nE nMdFa (nth 0 b []) (fun z => faceInt (sendMat el fa) (full (Q z) el m))
  | Lt => rep nE nMdFa (nth 0 b []) (fun z => faceInt (sendMat el fa) (fun x y => add (full (Q z) el (2 * m) x y) (full (Q z) el (2 * m + 1) x y)))
  | Gt => rep nE nMdFa (nth 0 b []) (fun z => faceInt (sendMat el fa) (half (Q z) el m)) /\
          rep nE nMdFa (nth 1 b []) (fun z => faceInt (sendMat el fa) (fun x y => sub (full (Q z) el m x y) (half (Q z) el m x y)))
  end.

(** buffers of a face *)
Definition faceInv (L N : nat -> nat) (Se R : nat -> nat -> nat) (s : @lstate T) (recv : list (@buffer T)) (net : @msgs T) (el fa : nat) : Prop :=
  match mesh el fa with
  | Inner ne v f => if cross el fa then
      (Se el fa <= filled L el fa <= S (Se el fa)) /\ R el fa <= S (used N el fa) /\
      (exists b, nth_error (lSend s) (at_ cf el fa) = Some (Some b) /\ bufferOk cf (rel el fa) b /\ (0 < filled L el fa -> carries el fa (filled L el fa - 1) b)) /\
      (exists b, nth_error recv (at_ cf el fa) = Some (Some b) /\ bufferOk cf (CompOpp (rel el fa)) b /\ (0 < R el fa -> carries ne f (R el fa - 1) b)) /\
      (exists q, nth_error net (at_ cf el fa) = Some q /\ length q + R el fa = Se ne f /\ forall i b, nth_error q i = Some b -> bufferOk cf (CompOpp (rel el fa)) b /\ carries ne f (R el fa + i) b)
    else nth_error (lSend s) (at_ cf el fa) = Some None /\ nth_error recv (at_ cf el fa) = Some None /\
      match Nat.compare (lvl el) (lvl ne) with Eq => L el <= S (N ne) | Lt => L el <= 2 * N ne + 2 | Gt => 2 * L el <= N ne + 2 end
  | _ => nth_error (lSend s) (at_ cf el fa) = Some None /\ nth_error recv (at_ cf el fa) = Some None
  end.
Definition Inv (L N : nat -> nat) (Se R : nat -> nat -> nat) (s : @lstate T) (recv : list (@buffer T)) (net : @msgs T) : Prop := lshape cf U s /\ (length recv = uN U * nFa /\ length net = uN U * nFa /\ forall el fa, el < uN U -> fa < nFa -> crosses el fa = false -> nth_error net (at_ cf el fa) = Some []) /\
  forall el, el < uN U ->
    (N el <= L el <= S (N el)) /\
    holds (nth el (lE s) []) (nth el (lA s) []) (fun z => if L el =? N el then Q z el (N el) else plus A (Q z el (N el)) (ownTerms A cf U el (predInt A cf U el (dt (lvl el) (N el)) (Q z el (N el))))) /\
    length (nth el (l0 s) []) = nE * nMd * nCr /\ (0 < L el -> rep nE nMd (nth el (l0 s) []) (fun z => full (Q z) el (L el - 1))) /\
    (anyRel Lt el = true -> length (nth el (l1 s) []) = nE * nMd * nCr /\ (0 < L el -> rep nE nMd (nth el (l1 s) []) (summed el (L el)))) /\
    (anyRel Gt el = true -> length (nth el (l2 s) []) = nE * nMd * nCr /\ (0 < L el -> rep nE nMd (nth el (l2 s) []) (fun z => half (Q z) el (L el - 1)))) /\
    forall fa, fa < nFa -> faceInv L N Se R s recv net el fa.

Lemma faceInt_ext F f g x m : (forall y, f x y = g x y) -> faceInt F f x m = faceInt F g x m.
Proof. intros E. unfold AderSpec.faceInt. apply sum_ext. intros. now rewrite E. Qed.
Lemma rel_sym el fa ne v f v' fa' : mesh el fa = Inner ne v f -> mesh ne f = Inner el v' fa' -> rel ne f = CompOpp (rel el fa).
Proof. intros E1 E2. unfold AderLtsSpec.rel. rewrite E1, E2. apply Nat.compare_antisym. Qed.
Lemma half_mono a b : a <= b -> a / 2 <= b / 2.
Proof. intros. apply Nat.div_le_mono; lia. Qed.
Lemma div2_even m : (2 * m) / 2 = m.
Proof. rewrite Nat.mul_comm. apply Nat.div_mul. lia. Qed.
Lemma div2_odd m : (2 * m + 1) / 2 = m.
Proof. rewrite Nat.add_comm, Nat.mul_comm, Nat.div_add by lia. reflexivity. Qed.

Lemma bump_in c first n el : first <= el < first + n -> bump c first n el = S (c el).
Proof. intros H. unfold bump. now rewrite (proj2 (Nat.leb_le _ _) (proj1 H)), (proj2 (Nat.ltb_lt _ _) (proj2 H)). Qed.
Lemma bump_out c first n el : ~ first <= el < first + n -> bump c first n el = c el.
Proof. intros H. unfold bump. destruct (Nat.leb_spec first el); [|reflexivity]. destruct (Nat.ltb_spec el (first + n)); [lia|reflexivity]. Qed.
Lemma bump_ge c first n el : c el <= bump c first n el.
Proof. unfold bump. destruct (_ && _); lia. Qed.
Lemma range_dec first n el : {first <= el < first + n} + {~ first <= el < first + n}.
Proof. destruct (le_lt_dec first el); [|right; lia]. destruct (le_lt_dec (first + n) el); [right|left]; lia. Qed.
Lemma even_S n : Nat.even (S n) = negb (Nat.even n).
Proof. rewrite Nat.even_succ, <- Nat.negb_even. reflexivity. Qed.
Lemma even_2 n : Nat.even n = true -> exists m, n = 2 * m.
Proof. intros H. apply Nat.even_spec in H. exact H. Qed.
Lemma even_2' n : Nat.even n = false -> exists m, n = 2 * m + 1.
Proof. intros H. rewrite <- Nat.negb_odd in H. apply negb_false_iff in H. apply Nat.odd_spec in H. exact H. Qed.

Lemma used_mono N first n el fa : used N el fa <= used (bump N first n) el fa.
Proof. unfold AderLtsSpec.used. pose proof (bump_ge N first n el). destruct (rel el fa); auto using half_mono. Qed.
Lemma filled_eq L L' el fa : L' el = L el -> filled L' el fa = filled L el fa.
Proof. intros E. unfold AderLtsSpec.filled. now rewrite E. Qed.
Lemma at_inj el fa el' fa' : fa < nFa -> fa' < nFa -> at_ cf el fa = at_ cf el' fa' -> el = el' /\ fa = fa'.
Proof.
  intros H1 H2 E. unfold at_ in E. assert (el = el').
  { transitivity ((el * nFa + fa) / nFa); [apply Nat.div_unique with fa; lia|symmetry; apply Nat.div_unique with fa'; lia]. }
  subst. lia.
Qed.


Lemma filled_step L first n el fa : first <= el < first + n ->
  filled (bump L first n) el fa = match rel el fa with Lt => if Nat.even (L el) then filled L el fa else S (filled L el fa) | _ => S (filled L el fa) end.
Proof.
  intros H. unfold AderLtsSpec.filled. rewrite (bump_in _ _ _ _ H). destruct (rel el fa); try reflexivity. destruct (Nat.even (L el)) eqn:E.
  - destruct (even_2 _ E) as (m & ->). replace (S (2 * m)) with (2 * m + 1) by lia. now rewrite div2_odd, div2_even.
  - destruct (even_2' _ E) as (m & ->). replace (S (2 * m + 1)) with (2 * (m + 1)) by lia. rewrite div2_odd, div2_even. lia.
Qed.

Lemma run_local L N Se R s recv net lv first n k pts : Inv L N Se R s recv net -> ready L N Se R (OLocal lv first n k pts) ->
  exists s', runOp A cf U mesh dt hdt K fl M chars J mpi (OLocal lv first n k pts) (s, recv, net) = Ok (s', recv, net) /\ Inv (bump L first n) N Se R s' recv net.
Proof.
  intros (IS & IR & I) (Hn & HR). cbn [runOp]. assert (Hk : forall el, first <= el < first + n -> k = N el) by (intros el He; destruct (HR el He) as (_ & X & Y & _); congruence).
  remember (Nat.even k) as ft eqn:Hft0. assert (HR' : forall el, first <= el < first + n -> _) by exact HR. clear HR.
  assert (HR : forall el, first <= el < first + n -> lvl el = lv /\ L el = N el /\ ft = Nat.even (L el) /\ forall fa ne v f, fa < nFa -> mesh el fa = Inner ne v f ->
        if cross el fa then rel el fa = Lt /\ Nat.even (L el) = true \/ filled L el fa <= Se el fa
        else match Nat.compare (lvl el) (lvl ne) with Eq => L el <= N ne | Lt => Nat.even (L el) = true -> L el <= 2 * N ne | Gt => 2 * L el <= N ne end).
  { intros el He. destruct (HR' el He) as (X1 & X2 & X3 & X4). split; [exact X1|]. split; [exact X2|]. split; [congruence|exact X4]. }
  clear HR' Hft0.
  destruct (local_ok A cf U K fl chars (aVId M) ft (dt lv k) (hdt lv k) pts J first n s rel (anyRel Lt) (anyRel Gt) (fun el z => Q z el (N el))
    (fun el => if ft then (fun z x y => nth (pos nCr nMd x y z) (nth el (l1 s) []) zero) else summed el (L el)) HU HK HJ IS Hn HV) as (s' & new & E & S' & Same & Post & _).
  { intros el Hel. destruct (I el ltac:(lia)) as (Hc & Hh & H0 & _ & H1 & H2 & Hf). destruct (HR el Hel) as (Hlv & HLN & Hft & _). destruct (HC el ltac:(lia)) as (c & Ec & Ef & Es).
    unfold localPre. split; [|split; [exact H0|split; [|split]]].
    - eapply holds_ext; [exact Hh|]. intros z _. cbv beta. rewrite HLN, Nat.eqb_refl. split; reflexivity.
    - destruct (anyRel Lt el) eqn:Ey; [|exact Logic.I]. destruct (H1 eq_refl) as (Ll & Rl). rewrite Hft. destruct (Nat.even (L el)) eqn:Ev; [now apply rep_any|].
      apply Rl. destruct (L el); [discriminate|lia].
    - destruct (anyRel Gt el); [exact (proj1 (H2 eq_refl))|exact Logic.I].
    - exists c. split; [exact Ec|]. split; [exact Ef|]. intros fa b Hfa Eb. specialize (Hf fa Hfa). unfold faceInv in Hf. destruct (HM el fa ltac:(lia) Hfa) as (fid & ch & _ & _ & Hm).
      destruct (mesh el fa) as [| |ne v f] eqn:Em; [destruct Hf; congruence|destruct Hf; congruence|]. destruct Hm as (_ & _ & Hv & _ & _ & Hne & Hlf & Hcr & _ & Hm). destruct (cross el fa) eqn:Ecr; [|destruct Hf; congruence].
      destruct Hf as (_ & _ & (b0 & Eb0 & Ob & _) & _). rewrite Eb in Eb0. injection Eb0 as <-. destruct Hm as (_ & Hs). split; [now apply Es|]. split; [exact Ob|].
      split; [intros X; now apply (anyRel_in Lt el fa)|]. split; [intros X; now apply (anyRel_in Gt el fa)|]. exists v. split.
      + destruct Hv as (row & Hr1 & Hr2). now rewrite (nth_error_nth _ _ _ Hr1).
      + destruct (HM ne f Hne Hlf) as (fid' & ch' & _ & _ & Hm). rewrite Hs in Hm. apply Hm. }
  exists s'. rewrite E. cbn [bind]. split; [reflexivity|]. split; [exact S'|]. split; [exact IR|].
  intros el Hel. destruct (I el Hel) as (Hc & Hh & H0 & R0 & H1 & H2 & Hd).
  assert (HF : forall fa, fa < nFa -> faceInv (bump L first n) N Se R s' recv net el fa).
  { intros fa Hfa. specialize (Hd fa Hfa). unfold faceInv in *. destruct (HM el fa Hel Hfa) as (fid & ch & _ & _ & Hm).
    assert (HNo : nth_error (lSend s) (at_ cf el fa) = Some None -> nth_error (lSend s') (at_ cf el fa) = Some None).
    { intros E0. destruct (range_dec first n el) as [Rg|Rg].
      - destruct (Post el Rg) as (_ & _ & _ & _ & P). specialize (P fa Hfa). now rewrite E0 in P.
      - destruct (Same el Rg) as (_ & _ & _ & _ & _ & P). now rewrite (P fa Hfa). }
    destruct (mesh el fa) as [| |ne v f] eqn:Em; [destruct Hd; auto|destruct Hd; auto|]. destruct Hm as (_ & _ & Hv & _ & _ & Hne & Hlf & Hcr & _ & Hm).
    destruct (cross el fa) eqn:Ecr.
    - destruct Hm as (_ & Hs). destruct Hd as (D1 & D2 & (b & Eb & Ob & Cb) & D4). split; [|split; [exact D2|split; [|exact D4]]].
      + destruct (range_dec first n el) as [Rg|Rg]; [|now rewrite (filled_eq L (bump L first n)) by now apply bump_out].
        destruct (HR el Rg) as (_ & _ & Hft & Hg). specialize (Hg fa ne v f Hfa Em). rewrite Ecr in Hg. rewrite (filled_step L _ _ _ _ Rg).
        destruct (rel el fa) eqn:Er; [destruct Hg as [(X & _)|Hg]; [discriminate|lia]| |destruct Hg as [(X & _)|Hg]; [discriminate|lia]].
        destruct (Nat.even (L el)); [exact D1|]. destruct Hg as [(_ & X)|Hg]; [congruence|lia].
      + destruct (range_dec first n el) as [Rg|Rg].
        * destruct (Post el Rg) as (_ & _ & _ & _ & P). specialize (P fa Hfa). rewrite Eb in P. destruct P as (b' & v0 & Eb' & Ev & Ob' & Sn). exists b'. split; [exact Eb'|]. split; [exact Ob'|]. intros Hpos.
          assert (v0 = v). { destruct Hv as (row & Hr1 & Hr2). rewrite (nth_error_nth _ _ _ Hr1) in Ev. congruence. } subst v0.
          destruct (HR el Rg) as (Hlv & HLN & Hft & _). rewrite (filled_step L _ _ _ _ Rg) in Hpos |- *.
          replace (nth (nFa + (v * nFa + fa)) (uLN U) []) with (sendMat el fa) in Sn by (unfold sendMat; now rewrite Em). rewrite <- Hlv, (Hk el Rg) in Sn.
          unfold carries. assert (HLf : rel el fa <> Lt -> filled L el fa = N el) by (intros X; unfold AderLtsSpec.filled; rewrite <- HLN; destruct (rel el fa); congruence).
          destruct (rel el fa) eqn:Er.
          -- rewrite HLf by congruence. replace (S (N el) - 1) with (N el) by lia. exact Sn.
          -- rewrite <- Hft. destruct ft.
             ++ subst b'. clear HLf. unfold carries in Cb. rewrite Er in Cb. apply Cb. rewrite <- Hft in Hpos. exact Hpos.
             ++ assert (Ev' := eq_sym Hft). apply even_2' in Ev'. destruct Ev' as (m & Em').
                assert (Hfl : filled L el fa = m) by (unfold AderLtsSpec.filled; rewrite Er, Em'; apply div2_odd). rewrite Hfl. replace (S m - 1) with m by lia.
                eapply rep_ext; [exact Sn|]. intros z x y _ _ _. cbv beta. apply faceInt_ext. intros y'. unfold summed. rewrite <- Hft. f_equal.
                ** now replace (L el - 1) with (2 * m) by lia.
                ** replace (2 * m + 1) with (N el) by lia. reflexivity.
          -- rewrite HLf by congruence. replace (S (N el) - 1) with (N el) by lia. exact Sn.
        * destruct (Same el Rg) as (_ & _ & _ & _ & _ & P). rewrite (P fa Hfa). exists b. rewrite (filled_eq L (bump L first n)) by now apply bump_out. auto.
    - destruct Hm as (_ & v' & Hs). destruct Hd as (D1 & D2 & D3). split; [auto|]. split; [auto|]. destruct (range_dec first n el) as [Rg|Rg].
      + rewrite bump_in by auto. destruct (HR el Rg) as (Hlv & HLN & Hft & Hg). specialize (Hg fa ne v f Hfa Em). rewrite Ecr in Hg. destruct (Nat.compare (lvl el) (lvl ne)); [lia| |lia].
        destruct (Nat.even (L el)) eqn:Ev; [specialize (Hg eq_refl); lia|]. apply even_2' in Ev. destruct Ev as (m & Ev). lia.
      + now rewrite bump_out by auto. }
  destruct (range_dec first n el) as [Rg|Rg].
  - destruct (HR el Rg) as (Hlv & HLN & Hft & Hg). destruct (Post el Rg) as (P1 & P2 & P3 & P4 & _). rewrite (bump_in _ _ _ _ Rg). rewrite <- Hlv, (Hk el Rg) in P1, P2, P3, P4.
    split; [lia|]. split; [|split; [|split; [|split; [|split; [|exact HF]]]]].
    + destruct (Nat.eqb_spec (S (L el)) (N el)); [lia|]. exact P1.
    + apply P2.
    + intros _. replace (S (L el) - 1) with (N el) by lia. exact P2.
    + intros Ey. rewrite Ey in P3. split; [apply P3|]. intros _. eapply rep_ext; [exact P3|]. intros z x y _ _ _. cbv beta. unfold summed. rewrite even_S, Hft.
      destruct (Nat.even (L el)) eqn:Ev; cbn [negb].
      * replace (S (L el) - 1) with (N el) by lia. unfold AderLtsSpec.full. ring.
      * replace (S (L el) - 2) with (L el - 1) by lia. replace (S (L el) - 1) with (N el) by lia. unfold AderLtsSpec.full. reflexivity.
    + intros Ey. rewrite Ey in P4. split; [apply P4|]. intros _. replace (S (L el) - 1) with (N el) by lia. exact P4.
  - destruct (Same el Rg) as (E1 & E2 & E3 & E4 & E5 & _). rewrite (bump_out _ _ _ _ Rg), E1, E2, E3, E4, E5. auto 10.
Qed.

Lemma run_neigh L N Se R s recv net lv first n k : Inv L N Se R s recv net -> ready L N Se R (ONeigh lv first n k) ->
  exists s', runOp A cf U mesh dt hdt K fl M chars J mpi (ONeigh lv first n k) (s, recv, net) = Ok (s', recv, net) /\ Inv L (bump N first n) Se R s' recv net.
Proof.
  intros (IS & IR & I) (Hn & HR). assert (IS' := IS). destruct IS' as (L1 & L2 & L3 & L4 & L5 & L6 & S1 & S2 & S3 & S4). cbn [runOp].
  destruct (neigh_ok A cf U K fl M chars (Nat.even k) (l0 s) (l1 s) (l2 s) (if mpi then Some recv else None) J first n (lE s) (lA s) (sFa0 (lScr s)) (sFa1 (lScr s)) (isOut mesh) (matId cf mesh) (fun el fa z => data (Q z) el fa (N el))
    (fun el z => plus A (Q z el (N el)) (ownTerms A cf U el (predInt A cf U el (dt (lvl el) (N el)) (Q z el (N el))))) HU HK HJ Hn L1 L2 S3 S4) as (dE & dA & x0 & x1 & E & D1 & D2 & D3 & D4 & Same & Post).
  { intros el Hel. destruct (I el ltac:(lia)) as (Hc & Hh & H0 & R0 & _ & _ & Hd). destruct (HR el Hel) as (Hlv & HLN & Hft & Hg). split.
    2: { eapply holds_ext; [exact Hh|]. intros z _. cbv beta. destruct (Nat.eqb_spec (L el) (N el)); [lia|]. split; reflexivity. }
    destruct (HC el ltac:(lia)) as (c & Ec & _ & Es). exists c. split; [exact Ec|]. intros fa Hfa. destruct (HM el fa ltac:(lia) Hfa) as (fid & ch & Hfid & Hch & Hm).
    exists fid, ch. split; [exact Hfid|]. split; [exact Hch|]. specialize (Es fa Hfa). specialize (Hd fa Hfa). specialize (Hg fa). unfold faceInv in Hd. unfold isOut, matId, AderLtsSpec.data.
    assert (Hno : nth_error recv (at_ cf el fa) = Some None -> match (if mpi then Some recv else None) with None => @None (list (list T)) = None | Some l => nth_error l (at_ cf el fa) = Some None end) by (intros X; destruct mpi; auto).
    destruct (mesh el fa) as [| |ne v f] eqn:Em.
    - split; [exact Hm|]. discriminate.
    - destruct Hm as (Ho & Hf). split; [exact Ho|]. intros _. exists Eq, None. split; [unfold AderLtsSpec.rel in Es; now rewrite Em in Es|]. split; [now apply Hno|]. rewrite Hf. split; [reflexivity|]. split; [reflexivity|]. split; [reflexivity|].
      unfold bufferData. split; [lia|]. split; [lia|]. split; [lia|]. specialize (R0 ltac:(lia)). replace (L el - 1) with (N el) in R0 by lia. exact R0.
    - destruct Hm as (Ho & Hf & H4 & H5 & H6 & H7 & H8 & Hcr & Hl & Hm). specialize (Hg ne v f Hfa eq_refl). split; [exact Ho|]. intros _. 
      assert (Hrel' : rel el fa = Nat.compare (lvl el) (lvl ne)) by (unfold AderLtsSpec.rel; now rewrite Em).
      destruct (I ne H7) as (Gc & _ & G0 & GR0 & G1 & G2 & Gd). specialize (Gd f H8).
      destruct (cross el fa) eqn:Ecr.
      + destruct Hm as (Hx & Hs). destruct Hd as (C1 & C2 & _ & (b & Eb & Ob & Cb) & _). exists (rel el fa), (Some b). split; [exact Es|]. split.
        { destruct mpi; [exact Eb|]. exfalso. specialize (HP eq_refl el fa ltac:(lia) Hfa). unfold AderLtsSpec.crosses in HP. rewrite Em in HP. congruence. }
        rewrite Hf. exists v, f. do 4 (split; [assumption || reflexivity|]). split; [exact Ob|]. split; [exact Hx|]. rewrite <- Hrel'.
        assert (Hsm : sendMat ne f = nth (nFa + (v * nFa + f)) (uLN U) []) by (unfold sendMat; now rewrite Hs).
        unfold carries in Cb. rewrite (rel_sym _ _ _ _ _ _ _ Em Hs), Hsm in Cb. unfold AderLtsSpec.used in C2.
        destruct (rel el fa) eqn:Er; cbn [CompOpp] in Cb; specialize (Cb ltac:(lia)).
        * replace (R el fa - 1) with (N el) in Cb by lia. exact Cb.
        * assert (Ek : R el fa - 1 = N el / 2).
          { assert (Hlo : N el / 2 < R el fa) by (apply Nat.div_lt_upper_bound; lia). clear - Hlo C2. revert Hlo C2. generalize (N el / 2). intros; lia. }
          rewrite Ek in Cb. destruct Cb as (Ca & Cb). rewrite Hft. destruct (Nat.even (N el)); [exact Ca|exact Cb].
        * replace (R el fa - 1) with (N el) in Cb by lia. exact Cb.
      + destruct Hm as (H3 & v' & Hs). destruct Hd as (_ & Hnr & _). exists (Nat.compare (lvl el) (lvl ne)), None. split; [now rewrite <- Hrel'|]. split; [now apply Hno|].
        rewrite Hf. exists v, f. do 4 (split; [assumption || reflexivity|]). exists ne. split; [exact H3|].
        unfold faceInv in Gd. rewrite Hs, Hcr in Gd. destruct Gd as (_ & _ & Gd).
        unfold bufferData. split; [lia|]. split; [lia|]. split; [lia|].
        assert (Hrel : AderLtsSpec.rel mesh lvl ne f = Nat.compare (lvl ne) (lvl el)) by (unfold AderLtsSpec.rel; now rewrite Hs).
        destruct (Nat.compare_spec (lvl el) (lvl ne)) as [C|C|C].
        * rewrite C, Nat.compare_refl in Gd. specialize (GR0 ltac:(lia)). replace (L ne - 1) with (N el) in GR0 by lia. exact GR0.
        * rewrite (proj2 (Nat.compare_gt_iff _ _) C) in Gd. rewrite (proj2 (Nat.compare_gt_iff _ _) C) in Hrel. destruct (G2 (anyRel_in Gt ne f H8 Hrel)) as (_ & GR2).
          specialize (GR0 ltac:(lia)). specialize (GR2 ltac:(lia)).
          assert (Ek : L ne - 1 = N el / 2).
          { assert (Hlo : N el / 2 < L ne) by (apply Nat.div_lt_upper_bound; lia). assert (Hup : L ne - 1 <= N el / 2) by (apply Nat.div_le_lower_bound; lia). clear - Hlo Hup. revert Hlo Hup. generalize (N el / 2). intros; lia. }
          rewrite Ek in GR0, GR2. rewrite Hft. destruct (Nat.even (N el)); [exact GR2|]. eexists _, _. split; [exact GR0|]. split; [exact GR2|]. reflexivity.
        * rewrite (proj2 (Nat.compare_lt_iff _ _) C) in Gd. rewrite (proj2 (Nat.compare_lt_iff _ _) C) in Hrel. destruct (G1 (anyRel_in Lt ne f H8 Hrel)) as (_ & GR1).
          specialize (GR1 ltac:(lia)). assert (Ek : L ne = 2 * N el + 2) by lia. rewrite Ek in GR1. eapply rep_ext; [exact GR1|]. intros z x y _ _ _. unfold summed.
          replace (Nat.even (2 * N el + 2)) with true by (symmetry; apply Nat.even_spec; exists (N el + 1); lia). replace (2 * N el + 2 - 2) with (2 * N el) by lia. now replace (2 * N el + 2 - 1) with (2 * N el + 1) by lia. }
  rewrite E. cbn [bind]. eexists. split; [reflexivity|]. split; [|split; [exact IR|]].
  { unfold lshape. cbn [lE lA l0 l1 l2 lSend lScr sTmp sDer sFa0 sFa1]. repeat split; auto; apply S2. }
  cbn [lE lA l0 l1 l2]. intros el Hel. destruct (I el Hel) as (Hc & Hh & H0 & R0 & H1 & H2 & Hd). split; [|split; [|split; [exact H0|split; [exact R0|split; [exact H1|split; [exact H2|]]]]]].
  - destruct (range_dec first n el) as [Rg|Rg]; [rewrite bump_in by auto; destruct (HR el Rg) as (_ & X & _); lia|rewrite bump_out by auto; lia].
  - destruct (range_dec first n el) as [Rg|Rg].
    + rewrite bump_in by auto. destruct (HR el Rg) as (_ & X & _). rewrite X, Nat.eqb_refl. eapply holds_ext; [exact (Post el Rg)|]. intros z Hz. destruct (HQ z Hz el (N el) Hel) as (Qa & Qb).
      split; intros; symmetry; [apply Qa|apply Qb].
    + rewrite bump_out by auto. destruct (Same el Rg) as (-> & ->). exact Hh.
  - intros fa Hfa. specialize (Hd fa Hfa). unfold faceInv in *. cbn [lSend]. destruct (mesh el fa) as [| |ne v f]; [exact Hd|exact Hd|]. destruct (cross el fa).
    + destruct Hd as (X1 & X2 & X3). split; [exact X1|]. split; [|exact X3]. pose proof (used_mono N first n el fa). lia.
    + destruct Hd as (X1 & X2 & X3). split; [exact X1|]. split; [exact X2|]. pose proof (bump_ge N first n ne). destruct (Nat.compare (lvl el) (lvl ne)); lia.
Qed.

Lemma at_lt el fa : el < uN U -> fa < nFa -> at_ cf el fa < uN U * nFa.
Proof. intros H1 H2. unfold at_. apply Nat.lt_le_trans with (el * nFa + nFa); [lia|]. replace (el * nFa + nFa) with (S el * nFa) by lia. apply Nat.mul_le_mono_r. lia. Qed.
Lemma bump2_eq R el fa : bump2 R el fa el fa = S (R el fa).
Proof. unfold bump2. now rewrite !Nat.eqb_refl. Qed.
Lemma bump2_ne R el fa el' fa' : at_ cf el fa <> at_ cf el' fa' -> bump2 R el fa el' fa' = R el' fa'.
Proof. intros N. unfold bump2. destruct (Nat.eqb_spec el' el) as [->|]; [|reflexivity]. destruct (Nat.eqb_spec fa' fa) as [->|]; [congruence|reflexivity]. Qed.
Lemma cross_back el fa ne v f : el < uN U -> fa < nFa -> cross el fa = true -> mesh el fa = Inner ne v f -> ne < uN U /\ f < nFa /\ cross ne f = true /\ mesh ne f = Inner el v fa.
Proof. intros Hel Hfa Hcr Em. destruct (HM el fa Hel Hfa) as (fid & ch & _ & _ & Hm). rewrite Em, Hcr in Hm. destruct Hm as (_ & _ & _ & _ & _ & Hne & Hf & Hcr' & _ & _ & Hs). rewrite Hcr'. auto. Qed.

Lemma run_send L N Se R s recv net el fa : Inv L N Se R s recv net -> ready L N Se R (OSend el fa) ->
  exists net', runOp A cf U mesh dt hdt K fl M chars J mpi (OSend el fa) (s, recv, net) = Ok (s, recv, net') /\ Inv L N (bump2 Se el fa) R s recv net'.
Proof.
  intros (IS & (IR & IN & IE) & I) (Hel & Hfa & Hcr & (ne & v & f & Em) & G1). cbn [runOp]. rewrite Em. destruct (cross_back el fa ne v f Hel Hfa Hcr Em) as (Hne & Hf & Hcr' & Hs).
  destruct (I el Hel) as (_ & _ & _ & _ & _ & _ & Dn). specialize (Dn fa Hfa). unfold faceInv in Dn. rewrite Em, Hcr in Dn. destruct Dn as (D1 & _ & (b & Eb & Ob & Cb) & _ & _).
  rewrite (rd_some _ _ _ Eb). cbn [bind]. destruct (I ne Hne) as (_ & _ & _ & _ & _ & _ & Dq). specialize (Dq f Hf). unfold faceInv in Dq. rewrite Hs, Hcr' in Dq. destruct Dq as (_ & _ & _ & _ & (q & Eq & Lq & Cq)).
  rewrite (rd_some _ _ _ Eq). cbn [bind]. rewrite wr_ok by (rewrite IN; now apply at_lt). cbn [bind]. eexists. split; [reflexivity|]. split; [exact IS|]. split.
  { split; [exact IR|]. split; [now rewrite length_upd|]. intros el' fa' Hel' Hfa' Hcr2. rewrite nth_error_upd_ne; [now apply IE|]. intros Ea. destruct (at_inj _ _ _ _ Hf Hfa' Ea) as (<- & <-). unfold AderLtsSpec.crosses in Hcr2. rewrite Hs in Hcr2. congruence. }
  intros el' Hel'. destruct (I el' Hel') as (Hc & Hh & H0 & R0 & H1 & H2 & Hd). split; [exact Hc|]. split; [exact Hh|]. split; [exact H0|]. split; [exact R0|]. split; [exact H1|]. split; [exact H2|].
  intros fa' Hfa'. specialize (Hd fa' Hfa'). unfold faceInv in *. destruct (mesh el' fa') as [| |ne' v' f'] eqn:Em'; [exact Hd|exact Hd|]. destruct (cross el' fa') eqn:Ec'; [|exact Hd].
  destruct (cross_back el' fa' ne' v' f' Hel' Hfa' Ec' Em') as (Hne' & Hf' & Hcr'' & Hs'). destruct Hd as (X1 & X2 & X3 & X4 & (q' & Eq' & Lq' & Cq')).
  split; [|split; [exact X2|split; [exact X3|split; [exact X4|]]]].
  - destruct (Nat.eq_dec (at_ cf el fa) (at_ cf el' fa')) as [Ea|Ea].
    + destruct (at_inj _ _ _ _ Hfa Hfa' Ea) as (<- & <-). rewrite bump2_eq. lia.
    + now rewrite bump2_ne.
  - destruct (Nat.eq_dec (at_ cf ne f) (at_ cf el' fa')) as [Ea|Ea].
    + destruct (at_inj _ _ _ _ Hf Hfa' Ea) as (<- & <-). rewrite Hs in Em'. injection Em' as <- <- <-. rewrite Eq in Eq'. injection Eq' as <-. exists (q ++ [b]).
      split; [apply nth_error_upd_eq; rewrite IN; now apply at_lt|]. rewrite bump2_eq, app_length. cbn [length]. split; [lia|]. intros i b' Eb'. destruct (Nat.lt_ge_cases i (length q)) as [Hi|Hi].
      * rewrite nth_error_app1 in Eb' by auto. now apply Cq.
      * rewrite nth_error_app2 in Eb' by auto. destruct (i - length q) as [|j] eqn:Ej; [|cbn in Eb'; destruct j; discriminate]. cbn in Eb'. injection Eb' as <-.
        split; [now rewrite (rel_sym _ _ _ _ _ _ _ Em Hs), CompOpp_involutive|]. replace (R ne f + i) with (filled L el fa - 1) by lia. apply Cb. lia.
    + rewrite nth_error_upd_ne by auto. exists q'. split; [exact Eq'|]. split; [|exact Cq']. rewrite bump2_ne; [exact Lq'|]. intros Ea'. apply Ea. destruct (at_inj _ _ _ _ Hfa Hf' Ea') as (<- & <-).
      rewrite Em in Hs'. injection Hs' as -> _ ->. reflexivity.
Qed.

Lemma run_recv L N Se R s recv net el fa : Inv L N Se R s recv net -> ready L N Se R (ORecv el fa) ->
  exists recv' net', runOp A cf U mesh dt hdt K fl M chars J mpi (ORecv el fa) (s, recv, net) = Ok (s, recv', net') /\ Inv L N Se (bump2 R el fa) s recv' net'.
Proof.
  intros (IS & (IR & IN & IE) & I) (Hel & Hfa & Hcr & ne & v & f & Em & G1 & G2). cbn [runOp].
  destruct (I el Hel) as (_ & _ & _ & _ & _ & _ & Dq). specialize (Dq fa Hfa). unfold faceInv in Dq. rewrite Em, Hcr in Dq. destruct Dq as (_ & _ & _ & _ & (q & Eq & Lq & Cq)).
  rewrite (rd_some _ _ _ Eq). cbn [bind]. destruct q as [|b q]; [cbn [length] in Lq; lia|]. cbn [length] in Lq. rewrite wr_ok by (rewrite IR; now apply at_lt). cbn [bind]. rewrite wr_ok by (rewrite IN; now apply at_lt). cbn [bind].
  eexists _, _. split; [reflexivity|]. split; [exact IS|]. split.
  { split; [now rewrite length_upd|]. split; [now rewrite length_upd|]. intros el' fa' Hel' Hfa' Hcr2. rewrite nth_error_upd_ne; [now apply IE|]. intros Ea. destruct (at_inj _ _ _ _ Hfa Hfa' Ea) as (<- & <-). unfold AderLtsSpec.crosses in Hcr2. rewrite Em in Hcr2. congruence. }
  intros el' Hel'. destruct (I el' Hel') as (Hc & Hh & H0 & R0 & H1 & H2 & Hd). split; [exact Hc|]. split; [exact Hh|]. split; [exact H0|]. split; [exact R0|]. split; [exact H1|]. split; [exact H2|].
  intros fa' Hfa'. specialize (Hd fa' Hfa'). unfold faceInv in *. destruct (Nat.eq_dec (at_ cf el fa) (at_ cf el' fa')) as [Ea|Ea].
  - destruct (at_inj _ _ _ _ Hfa Hfa' Ea) as (<- & <-). rewrite Em, Hcr in Hd |- *. destruct Hd as (X1 & X2 & X3 & _ & _). rewrite bump2_eq.
    destruct (Cq 0 b eq_refl) as (Cb1 & Cb2). split; [exact X1|]. split; [lia|]. split; [exact X3|]. split.
    + exists b. split; [apply nth_error_upd_eq; rewrite IR; now apply at_lt|]. split; [exact Cb1|]. intros _. replace (S (R el fa) - 1) with (R el fa + 0) by lia. exact Cb2.
    + exists q. split; [apply nth_error_upd_eq; rewrite IN; now apply at_lt|]. split; [lia|]. intros i b' Eb'. replace (S (R el fa) + i) with (R el fa + S i) by lia. now apply Cq.
  - rewrite !nth_error_upd_ne by auto. rewrite bump2_ne by auto. exact Hd.
Qed.

Local Notation runOps := (runOps A cf U mesh dt hdt K fl M chars J mpi).
Lemma runOps_app ops ops' s : runOps (ops ++ ops') s = (s <- runOps ops s;; runOps ops' s).
Proof. revert s. induction ops as [|op ops IH]; intros s; [reflexivity|]. cbn [app AderLtsSpec.runOps]. destruct (runOp _ _ _ _ _ _ _ _ _ _ _ _ op s); [cbn [bind]; apply IH|reflexivity]. Qed.

Lemma run_schedule ops L N Se R s0 recv0 net0 : schedule ops L N Se R -> Inv (fun _ => 0) (fun _ => 0) (fun _ _ => 0) (fun _ _ => 0) s0 recv0 net0 ->
  exists s recv net, runOps ops (s0, recv0, net0) = Ok (s, recv, net) /\ Inv L N Se R s recv net.
Proof.
  intros S I0. induction S as [|ops L N Se R lv first n k pts S IH G|ops L N Se R lv first n k S IH G|ops L N Se R el fa S IH G|ops L N Se R el fa S IH G].
  - exists s0, recv0, net0. split; [reflexivity|exact I0].
  - destruct IH as (s & recv & net & E & I). destruct (run_local L N Se R s recv net lv first n k pts I G) as (s' & E' & I'). exists s', recv, net. split; [|exact I']. rewrite runOps_app, E. cbn [bind AderLtsSpec.runOps]. rewrite E'. reflexivity.
  - destruct IH as (s & recv & net & E & I). destruct (run_neigh L N Se R s recv net lv first n k I G) as (s' & E' & I'). exists s', recv, net. split; [|exact I']. rewrite runOps_app, E. cbn [bind AderLtsSpec.runOps]. rewrite E'. reflexivity.
  - destruct IH as (s & recv & net & E & I). destruct (run_send L N Se R s recv net el fa I G) as (net' & E' & I'). exists s, recv, net'. split; [|exact I']. rewrite runOps_app, E. cbn [bind AderLtsSpec.runOps]. rewrite E'. reflexivity.
  - destruct IH as (s & recv & net & E & I). destruct (run_recv L N Se R s recv net el fa I G) as (recv' & net' & E' & I'). exists s, recv', net'. split; [|exact I']. rewrite runOps_app, E. cbn [bind AderLtsSpec.runOps]. rewrite E'. reflexivity.
Qed.

Lemma initial_inv q0 s recv net : initial A cf U mesh lvl cross q0 s recv net -> (forall z el, z < nCr -> el < uN U -> Q z el 0 = q0 z el) ->
  Inv (fun _ => 0) (fun _ => 0) (fun _ _ => 0) (fun _ _ => 0) s recv net.
Proof.
  intros (H1 & H2 & -> & H3) H0. split; [exact H1|]. split; [split; [exact H2|]; split; [apply repeat_length|]; intros; apply nth_error_repeat; now apply at_lt|]. intros el Hel. destruct (H3 el Hel) as (P1 & P2 & P3 & P4 & P5). split; [lia|]. split; [|split; [exact P2|split; [lia|split; [|split]]]].
  - eapply holds_ext; [exact P1|]. intros z Hz. cbv beta. cbn [Nat.eqb]. rewrite H0 by auto. split; reflexivity.
  - intros E. split; [auto|lia].
  - intros E. split; [auto|lia].
  - intros fa Hfa. specialize (P5 fa Hfa). unfold faceInv. unfold AderLtsSpec.crosses in P5. destruct (mesh el fa) as [| |ne v f]; [exact P5|exact P5|]. destruct (cross el fa).
    + assert (F0 : forall e g, filled (fun _ => 0) e g = 0) by (intros; unfold AderLtsSpec.filled; destruct (rel e g); reflexivity).
      destruct P5 as (b & b' & E1 & O1 & E2 & O2). rewrite !F0. split; [lia|]. split; [lia|]. split; [|split]; [exists b|exists b'|exists []]; try (split; [assumption|split; [assumption|lia]]).
      split; [apply nth_error_repeat; now apply at_lt|]. split; [reflexivity|]. intros i b0 X. destruct i; discriminate.
    + destruct P5 as (E1 & E2). split; [exact E1|]. split; [exact E2|]. destruct (Nat.compare _ _); lia.
Qed.

(** all updates finished, all messages received: the arrays are ready for the next interval *)
Lemma inv_initial L N Se R s recv net : Inv L N Se R s recv net -> (forall el, el < uN U -> L el = N el) ->
  (forall el fa ne v f, el < uN U -> fa < nFa -> mesh el fa = Inner ne v f -> cross el fa = true -> Se el fa = R ne f) ->
  initial A cf U mesh lvl cross (fun z el => Q z el (N el)) s recv net.
Proof.
  intros (IS & (IR & IN & IE) & I) HL HR.
  assert (HE : forall el fa, el < uN U -> fa < nFa -> nth_error net (at_ cf el fa) = Some []).
  { intros el fa Hel Hfa. destruct (crosses el fa) eqn:Ec; [|now apply IE]. destruct (I el Hel) as (_ & _ & _ & _ & _ & _ & D). specialize (D fa Hfa). unfold faceInv in D. unfold AderLtsSpec.crosses in Ec. destruct (mesh el fa) as [| |ne v f] eqn:Em; [discriminate|discriminate|].
    rewrite Ec in D. destruct D as (_ & _ & _ & _ & (q & Eq & Lq & _)). destruct (cross_back el fa ne v f Hel Hfa Ec Em) as (Hne & Hf & Hcr' & Hs). rewrite (HR ne f el v fa Hne Hf Hs Hcr') in Lq. destruct q as [|b q]; [exact Eq|cbn [length] in Lq; lia]. }
  split; [exact IS|]. split; [exact IR|]. split.
  { apply nth_ext with (d := []) (d' := []); [now rewrite repeat_length|]. intros i Hi. rewrite nth_repeat. rewrite IN in Hi. assert (Pn : nFa <> 0) by (intros X; rewrite X in Hi; lia).
    assert (E1 := Nat.div_mod i nFa Pn). assert (B := Nat.mod_upper_bound i nFa Pn). assert (B' : i / nFa < uN U) by (apply Nat.div_lt_upper_bound; lia).
    specialize (HE (i / nFa) (i mod nFa) B' B). unfold at_ in HE. replace (i / nFa * nFa + i mod nFa) with i in HE by (rewrite Nat.mul_comm; exact E1). now apply nth_error_nth. }
  intros el Hel. destruct (I el Hel) as (_ & Hh & H0 & _ & H1 & H2 & D). split; [|split; [exact H0|split; [|split]]].
  - eapply holds_ext; [exact Hh|]. intros z _. cbv beta. rewrite (HL el Hel), Nat.eqb_refl. split; reflexivity.
  - intros E. exact (proj1 (H1 E)).
  - intros E. exact (proj1 (H2 E)).
  - intros fa Hfa. specialize (D fa Hfa). unfold faceInv in D. unfold AderLtsSpec.crosses. destruct (mesh el fa) as [| |ne v f]; [exact D|exact D|]. destruct (cross el fa).
    + destruct D as (_ & _ & (b & E1 & O1 & _) & (b' & E2 & O2 & _) & _). exists b, b'. auto.
    + destruct D as (E1 & E2 & _). auto.
Qed.
End Run.
