(** C106: initialization of the limiter's memory. *)
From Verif Require Import Util ScData ScDataSpec.
From Coq Require Import List Arith Lia.

(** the first [k] entries are set *)
Definition pre {A} (v : A) (n k : nat) (m : list A) : Prop := length m = n /\ firstn k m = repeat v k.
Lemma pre_wr {A} (v : A) n k m : pre v n k m -> k < n -> exists m', wr m k v = Ok m' /\ pre v n (k + 1) m'.
Proof.
  intros (L & F) H. rewrite wr_ok by lia. eexists. split; [reflexivity|]. split; [now rewrite length_upd|].
  assert (Es : m = firstn k m ++ skipn k m) by (symmetry; apply firstn_skipn). assert (Lk : length (skipn k m) = n - k) by (rewrite skipn_length; lia).
  destruct (skipn k m) as [|x q]; [cbn in Lk; lia|]. rewrite Es, F. rewrite upd_app_at by (now rewrite repeat_length).
  replace (repeat v k ++ v :: q) with (repeat v (k + 1) ++ q) by (rewrite repeat_app, <- app_assoc; reflexivity).
  rewrite firstn_app, repeat_length, Nat.sub_diag, firstn_O, app_nil_r. apply firstn_all2. rewrite repeat_length. lia.
Qed.
(** a loop around bodies which set [w] entries each *)
Lemma pre_for {A} (v : A) n b w N body m : b + N * w <= n -> pre v n b m ->
  (forall i m, i < N -> pre v n (b + i * w) m -> exists m', body i m = Ok m' /\ pre v n (b + i * w + w) m') ->
  exists m', for_ 0 N body m = Ok m' /\ pre v n (b + N * w) m'.
Proof.
  intros Hn P B. apply (for_ok (fun i m => pre v n (b + i * w) m)); [lia|now rewrite Nat.add_0_r|].
  intros i m1 Hi P1. destruct (B i m1 ltac:(lia) P1) as (m2 & E & P2). exists m2. split; [exact E|]. replace (b + S i * w) with (b + i * w + w) by lia. exact P2.
Qed.
Lemma pre_all {A} (v : A) n m : pre v n n m -> m = repeat v n.
Proof. intros (L & F). rewrite <- F. symmetry. apply firstn_all2. lia. Qed.
Lemma pre_0 {A} (v : A) m : pre v (length m) 0 m. Proof. split; reflexivity. Qed.

Section S.
  Variable (V : Type) (zero : V) (nQt nSc nSf nFa nCr : nat).

  Lemma row_ok {B} (v : B) n b f m : b + nCr <= n -> (forall cr, f cr = b + cr) -> pre v n b m -> exists m', for_ 0 nCr (fun cr m => wr m (f cr) v) m = Ok m' /\ pre v n (b + nCr) m'.
  Proof.
    intros Hn F P. replace (b + nCr) with (b + nCr * 1) by lia. apply pre_for; [lia|exact P|]. intros i m1 Hi P1. rewrite F. rewrite Nat.mul_1_r in *. apply pre_wr; [exact P1|lia].
  Qed.
  Lemma runs_ok {B} (v : B) n li m : (li + 1) * nCr <= n -> pre v n (li * nCr) m -> exists m', resetRuns nCr v li m = Ok m' /\ pre v n ((li + 1) * nCr) m'.
  Proof. intros Hn P. replace ((li + 1) * nCr) with (li * nCr + nCr) in * by lia. apply row_ok; auto. Qed.

  Lemma dofs_ok n li m : (li + 1) * (nQt * nSc * nCr) <= n -> pre zero n (li * (nQt * nSc * nCr)) m -> exists m', resetDofs V zero nQt nSc nCr li m = Ok m' /\ pre zero n ((li + 1) * (nQt * nSc * nCr)) m'.
  Proof.
    intros Hn P. unfold resetDofs. replace ((li + 1) * (nQt * nSc * nCr)) with (li * (nQt * nSc * nCr) + nQt * (nSc * nCr)) in * by lia.
    apply pre_for; [exact Hn|exact P|]. intros qt m1 Hq P1. assert ((qt + 1) * (nSc * nCr) <= nQt * (nSc * nCr)) by (apply Nat.mul_le_mono_r; lia).
    apply pre_for; [lia|exact P1|]. intros sc m2 Hs P2. assert ((sc + 1) * nCr <= nSc * nCr) by (apply Nat.mul_le_mono_r; lia).
    apply row_ok; [lia| |exact P2]. intros cr. ring.
  Qed.
  Lemma buf_ok n nLimP m : n = nLimP * (nFa * (nQt * (nSf * nCr))) -> length m = n -> exists m', resetBuf V zero nQt nSf nFa nCr nLimP m = Ok m' /\ pre zero n n m'.
  Proof.
    intros En L. enough (G : exists m', resetBuf V zero nQt nSf nFa nCr nLimP m = Ok m' /\ pre zero n (0 + nLimP * (nFa * (nQt * (nSf * nCr)))) m') by (destruct G as (m' & E & P); exists m'; split; [exact E|]; cbn [Nat.add] in P; rewrite <- En in P; exact P). unfold resetBuf.
    apply pre_for; [lia|split; [exact L|reflexivity]|]. intros lp m1 I1 P1. assert ((lp + 1) * (nFa * (nQt * (nSf * nCr))) <= n) by (rewrite En; apply Nat.mul_le_mono_r; lia).
    apply pre_for; [lia|exact P1|]. intros fa m2 I2 P2. assert ((fa + 1) * (nQt * (nSf * nCr)) <= nFa * (nQt * (nSf * nCr))) by (apply Nat.mul_le_mono_r; lia).
    apply pre_for; [lia|exact P2|]. intros qt m3 I3 P3. assert ((qt + 1) * (nSf * nCr) <= nQt * (nSf * nCr)) by (apply Nat.mul_le_mono_r; lia).
    apply pre_for; [lia|exact P3|]. intros sf m4 I4 P4. assert ((sf + 1) * nCr <= nSf * nCr) by (apply Nat.mul_le_mono_r; lia).
    apply row_ok; [lia| |exact P4]. intros cr. ring.
  Qed.
  Lemma ext_ok n nExt m : n = nExt * (2 * (nQt * nCr)) -> length m = n -> exists m', resetExt V zero nQt nCr nExt m = Ok m' /\ pre zero n n m'.
  Proof.
    intros En L. enough (G : exists m', resetExt V zero nQt nCr nExt m = Ok m' /\ pre zero n (0 + nExt * (2 * (nQt * nCr))) m') by (destruct G as (m' & E & P); exists m'; split; [exact E|]; cbn [Nat.add] in P; rewrite <- En in P; exact P). unfold resetExt.
    apply pre_for; [lia|split; [exact L|reflexivity]|]. intros ex m1 I1 P1. assert ((ex + 1) * (2 * (nQt * nCr)) <= n) by (rewrite En; apply Nat.mul_le_mono_r; lia).
    apply pre_for; [lia|exact P1|]. intros e2 m2 I2 P2. assert ((e2 + 1) * (nQt * nCr) <= 2 * (nQt * nCr)) by (apply Nat.mul_le_mono_r; lia).
    apply pre_for; [lia|exact P2|]. intros qt m3 I3 P3. assert ((qt + 1) * nCr <= nQt * nCr) by (apply Nat.mul_le_mono_r; lia).
    apply row_ok; [lia| |exact P3]. intros cr. ring.
  Qed.

  Lemma each_ok {B} (P Q : list B -> Prop) N f b : length b = N -> (forall m, In m b -> P m) -> (forall m, P m -> exists m', f m = Ok m' /\ Q m') ->
    exists b', for_ 0 N (fun i b => m <- rd b i ;; m <- f m ;; wr b i m) b = Ok b' /\ length b' = N /\ forall m, In m b' -> Q m.
  Proof.
    intros L HP HF. destruct (for_ok (fun k (c : list (list B)) => length c = N /\ forall i m, nth_error c i = Some m -> (i < k -> Q m) /\ (k <= i -> P m)) 0 N (fun i b => m <- rd b i ;; m <- f m ;; wr b i m) b) as (b' & E & L' & H).
    - lia.
    - split; [exact L|]. intros i m Hm. split; [lia|]. intros _. apply HP. eapply nth_error_In; eauto.
    - intros k c Hk (Lc & H). destruct (nth_error c k) as [m|] eqn:Em; [|apply nth_error_None in Em; lia]. rewrite (rd_some _ _ _ Em). cbn [bind]. destruct (HF m) as (m' & E & Qm); [now apply (H k m Em)|]. rewrite E. cbn [bind]. rewrite wr_ok by lia. eexists. split; [reflexivity|]. split; [now rewrite length_upd|].
      intros i x Hx. destruct (Nat.eq_dec k i) as [<-|N1]; [rewrite nth_error_upd_eq in Hx by lia; injection Hx as <-; split; [auto|lia]|]. rewrite nth_error_upd_ne in Hx by auto. destruct (H i x Hx) as (A1 & A2). split; intros; [apply A1|apply A2]; lia.
    - exists b'. split; [exact E|]. split; [exact L'|]. intros m Hm. apply In_nth_error in Hm. destruct Hm as (i & Hi). apply (H i m Hi). rewrite <- L'. apply nth_error_Some. congruence.
  Qed.

  Lemma lim_ok nLim s : length (dofs V s) = nLim * (nQt * nSc * nCr) -> length (lock V s) = nLim * nCr -> length (limSync V s) = nLim * nCr -> length (adm V s) = 4 -> (forall m, In m (adm V s) -> length m = nLim * nCr) ->
    exists s', resetLim V zero nQt nSc nCr nLim s = Ok s' /\ tDofsRaw V s' = tDofsRaw V s /\ ext V s' = ext V s /\ pre zero (nLim * (nQt * nSc * nCr)) (nLim * (nQt * nSc * nCr)) (dofs V s') /\
      pre false (nLim * nCr) (nLim * nCr) (lock V s') /\ pre 0 (nLim * nCr) (nLim * nCr) (limSync V s') /\ length (adm V s') = 4 /\ forall m, In m (adm V s') -> pre true (nLim * nCr) (nLim * nCr) m.
  Proof.
    intros Ld Ll Ly La Lm. unfold resetLim.
    apply (for_ok (fun li s' => tDofsRaw V s' = tDofsRaw V s /\ ext V s' = ext V s /\ pre zero (nLim * (nQt * nSc * nCr)) (li * (nQt * nSc * nCr)) (dofs V s') /\
      pre false (nLim * nCr) (li * nCr) (lock V s') /\ pre 0 (nLim * nCr) (li * nCr) (limSync V s') /\ length (adm V s') = 4 /\ forall m, In m (adm V s') -> pre true (nLim * nCr) (li * nCr) m)).
    - lia.
    - repeat (split; [first [reflexivity|assumption|split; [assumption|reflexivity]]|]). intros m Hm. split; [auto|reflexivity].
    - intros li t Hli (T & X & D & L & Y & A & M). assert (Hr : (li + 1) * nCr <= nLim * nCr) by (apply Nat.mul_le_mono_r; lia).
      destruct (dofs_ok (nLim * (nQt * nSc * nCr)) li (dofs V t)) as (d & Ed & Pd); [apply Nat.mul_le_mono_r; lia|exact D|]. rewrite Ed. cbn [bind].
      destruct (each_ok (fun m => pre true (nLim * nCr) (li * nCr) m) (fun m => pre true (nLim * nCr) ((li + 1) * nCr) m) 4 (resetRuns nCr true li) (adm V t) A M) as (a & Ea & La' & Pa); [intros m Pm; now apply runs_ok|]. unfold resetAdm. rewrite Ea. cbn [bind].
      destruct (runs_ok false (nLim * nCr) li (lock V t) Hr L) as (l & El & Pl). rewrite El. cbn [bind]. destruct (runs_ok 0 (nLim * nCr) li (limSync V t) Hr Y) as (y & Ey & Py). rewrite Ey. cbn [bind].
      eexists. split; [reflexivity|]. cbn [dofs tDofsRaw ext adm lock limSync]. replace (S li) with (li + 1) by lia. repeat (split; [assumption|]). exact Pa.
  Qed.
End S.

Lemma holds_len {A} sz bytes n (m : list A) : 0 < sz -> bytes = n * sz -> holds sz bytes m -> length m = n.
Proof. unfold holds. intros H -> E. apply Nat.mul_cancel_r in E; lia. Qed.
Lemma pre_holds {A} (v : A) sz bytes n m : bytes = n * sz -> pre v n n m -> holds sz bytes m /\ allAre v m.
Proof.
  intros -> P. rewrite (pre_all _ _ _ P). split; [unfold holds; now rewrite repeat_length|]. intros x Hx. now apply repeat_spec in Hx.
Qed.

(** all of the allocated memory is set, and nothing else: DOFs and extrema to zero, all solutions are admissible, there are no locks, and no limits since the last synchronization; [sr], [sb], [su]: bytes of floating point numbers, bools and unsigned ints *)
Theorem C106_reset V (zero : V) nQt nSc nSf nFa nCr nLim nLimP nExt sr sb su s : 0 < sr -> 0 < sb -> 0 < su ->
  holds sr (dofsSize nQt nSc nCr sr nLim) (dofs V s) -> holdsAll 2 sr (tDofsSize nQt nSf nFa nCr sr nLimP) (tDofsRaw V s) -> holdsAll 2 sr (extSize nQt nCr sr nExt) (ext V s) ->
  holdsAll 4 sb (runsSize nCr sb nLim) (adm V s) -> holds sb (runsSize nCr sb nLim) (lock V s) -> holds su (runsSize nCr su nLim) (limSync V s) ->
  exists s', data V zero nQt nSc nSf nFa nCr nLim nLimP nExt s = Ok s' /\
    (holds sr (dofsSize nQt nSc nCr sr nLim) (dofs V s') /\ allAre zero (dofs V s')) /\
    (holdsAll 2 sr (tDofsSize nQt nSf nFa nCr sr nLimP) (tDofsRaw V s') /\ forall m, In m (tDofsRaw V s') -> allAre zero m) /\
    (holdsAll 2 sr (extSize nQt nCr sr nExt) (ext V s') /\ forall m, In m (ext V s') -> allAre zero m) /\
    (holdsAll 4 sb (runsSize nCr sb nLim) (adm V s') /\ forall m, In m (adm V s') -> allAre true m) /\
    (holds sb (runsSize nCr sb nLim) (lock V s') /\ allAre false (lock V s')) /\
    (holds su (runsSize nCr su nLim) (limSync V s') /\ allAre 0 (limSync V s')).
Proof.
  intros Hr Hb Hu Hd (Lt & Ht) (Le & He) (La & Ha) Hl Hy.
  assert (E1 : dofsSize nQt nSc nCr sr nLim = nLim * (nQt * nSc * nCr) * sr) by (unfold dofsSize; ring).
  assert (E2 : tDofsSize nQt nSf nFa nCr sr nLimP = nLimP * (nFa * (nQt * (nSf * nCr))) * sr) by (unfold tDofsSize; ring).
  assert (E3 : extSize nQt nCr sr nExt = nExt * (2 * (nQt * nCr)) * sr) by (unfold extSize; ring).
  assert (E4 : forall z, runsSize nCr z nLim = nLim * nCr * z) by (intros; unfold runsSize; ring).
  destruct (lim_ok V zero nQt nSc nCr nLim s) as (s1 & Es & T & X & D & L & Y & A & M).
  { eapply holds_len; [exact Hr|exact E1|exact Hd]. } { eapply holds_len; [exact Hb|apply E4|exact Hl]. } { eapply holds_len; [exact Hu|apply E4|exact Hy]. } { exact La. } { intros m Hm. eapply holds_len; [exact Hb|apply E4|auto]. }
  unfold data. rewrite Es. cbn [bind]. unfold both. rewrite T, X.
  destruct (each_ok (fun m => length m = nLimP * (nFa * (nQt * (nSf * nCr)))) (fun m => pre zero (nLimP * (nFa * (nQt * (nSf * nCr)))) (nLimP * (nFa * (nQt * (nSf * nCr)))) m) 2 (resetBuf V zero nQt nSf nFa nCr nLimP) (tDofsRaw V s) Lt) as (t & Et & Lt' & Pt).
  { intros m Hm. eapply holds_len; [exact Hr|exact E2|auto]. } { intros m Hm. now apply buf_ok. }
  rewrite Et. cbn [bind].
  destruct (each_ok (fun m => length m = nExt * (2 * (nQt * nCr))) (fun m => pre zero (nExt * (2 * (nQt * nCr))) (nExt * (2 * (nQt * nCr))) m) 2 (resetExt V zero nQt nCr nExt) (ext V s) Le) as (e & Ee & Le' & Pe).
  { intros m Hm. eapply holds_len; [exact Hr|exact E3|auto]. } { intros m Hm. now apply ext_ok. }
  rewrite Ee. cbn [bind]. eexists. split; [reflexivity|]. cbn [dofs tDofsRaw ext adm lock limSync].
  split; [|split; [|split; [|split; [|split]]]].
  - eapply pre_holds; [exact E1|exact D].
  - split; [split; [exact Lt'|]|]; intros m Hm; apply (pre_holds zero sr _ _ m E2); auto.
  - split; [split; [exact Le'|]|]; intros m Hm; apply (pre_holds zero sr _ _ m E3); auto.
  - split; [split; [exact A|]|]; intros m Hm; apply (pre_holds true sb _ _ m (E4 sb)); auto.
  - eapply pre_holds; [apply E4|exact L].
  - eapply pre_holds; [apply E4|exact Y].
Qed.
Print Assumptions C106_reset.

(** non-vacuity: two limited, three limited plus and four elements with extrema *)
Definition exMem : mem nat := Mem nat (repeat 7 24) [repeat 7 36; repeat 7 36] [repeat 7 32; repeat 7 32] (repeat (repeat false 4) 4) (repeat true 4) (repeat 7 4).
Example C106_ex_holds : holds 8 (dofsSize 2 3 2 8 2) (dofs nat exMem) /\ holdsAll 2 8 (tDofsSize 2 1 3 2 8 3) (tDofsRaw nat exMem) /\ holdsAll 2 8 (extSize 2 2 8 4) (ext nat exMem) /\
  holdsAll 4 1 (runsSize 2 1 2) (adm nat exMem) /\ holds 1 (runsSize 2 1 2) (lock nat exMem) /\ holds 4 (runsSize 2 4 2) (limSync nat exMem).
Proof. repeat split; intros m Hm; cbn in Hm; repeat (destruct Hm as [<-|Hm]; [reflexivity|]); destruct Hm. Qed.
Example C106_ex : data nat 0 2 3 1 3 2 2 3 4 exMem = Ok (Mem nat (repeat 0 24) [repeat 0 36; repeat 0 36] [repeat 0 32; repeat 0 32] (repeat (repeat true 4) 4) (repeat false 4) (repeat 0 4)).
Proof. reflexivity. Qed.
