(** Compressed matrices as used by the kernels for fused simulations: entries, and products with arrays of quantities and modes. *)
From Coq Require Import Ring.
From Verif Require Import Util MeshConn MatMul Props_Mat MatSparse Props_MatSparse Ader AderSpec AderV MmXsmm XsmmSpec.

Section Csc.
Context {T : Type}.
Variables (A : alg T) (cf : conf).
Local Notation zero := (aZero A).
Local Notation add := (aAdd A).
Local Notation mul := (aMul A).
Local Notation opp := (aOpp A).
Local Notation sum := (sum A).
Local Notation ent := (ent A).
Local Notation rep := (rep A cf).
Local Notation nCr := (cCrs cf).
Local Notation spv := (spv A).
Add Ring TRc : (aRT A).

(** values which are stored for entry [j] of row (column) [i] *)
Definition rowVals (ptr idx : list nat) (vals : list T) (i j : nat) : list T :=
  map (fun p => nth p vals zero) (filter (fun p => nth p idx 0 =? j) (seq (nth i ptr 0) (nth (S i) ptr 0 - nth i ptr 0))).

Lemma filter_map {X Y} (f : X -> Y) (p : Y -> bool) l : filter p (map f l) = map f (filter (fun x => p (f x)) l).
Proof. induction l as [|x l IH]; cbn; [reflexivity|]. destruct (p (f x)); cbn; now rewrite IH. Qed.

Lemma csc_at n s r c : valuesAt (cscEntries zero n s) r c = if c <? n then rowVals (cPtr s) (cIdx s) (cVal s) c r else [].
Proof.
  unfold valuesAt, cscEntries, entriesOf. rewrite filter_flat_map.
  rewrite (flat_map_ext_in _ (fun o => if o =? c then map (fun p => (r, c, nth p (cVal s) zero)) (filter (fun p => nth p (cIdx s) 0 =? r) (seq (nth c (cPtr s) 0) (nth (S c) (cPtr s) 0 - nth c (cPtr s) 0))) else [])).
  - rewrite flat_map_single. destruct (c <? n); [|reflexivity]. rewrite map_map. reflexivity.
  - intros o _. rewrite filter_map. cbn [ro co fst snd]. rewrite Nat.add_1_r. destruct (Nat.eqb_spec o c) as [->|N].
    + rewrite (filter_ext _ (fun p => nth p (cIdx s) 0 =? r)) by (intros p; apply andb_true_r).
      apply map_ext_in. intros p Hp. apply filter_In in Hp. destruct Hp as [_ Hp]. apply Nat.eqb_eq in Hp. now rewrite Hp.
    + rewrite (filter_ext _ (fun _ => false)) by (intros p; apply andb_false_r). generalize (seq (nth o (cPtr s) 0) (nth (S o) (cPtr s) 0 - nth o (cPtr s) 0)).
      intros l. induction l; cbn; auto.
Qed.
Lemma csr_at n (s : comp T) r c : valuesAt (csrEntries zero n s) r c = if r <? n then rowVals (cPtr s) (cIdx s) (cVal s) r c else [].
Proof.
  unfold valuesAt, csrEntries, entriesOf. rewrite filter_flat_map.
  rewrite (flat_map_ext_in _ (fun o => if o =? r then map (fun p => (r, c, nth p (cVal s) zero)) (filter (fun p => nth p (cIdx s) 0 =? c) (seq (nth r (cPtr s) 0) (nth (S r) (cPtr s) 0 - nth r (cPtr s) 0))) else [])).
  - rewrite flat_map_single. destruct (r <? n); [|reflexivity]. rewrite map_map. reflexivity.
  - intros o _. rewrite filter_map. cbn [ro co fst snd]. rewrite Nat.add_1_r. destruct (Nat.eqb_spec o r) as [->|N].
    + cbn [andb].
      apply map_ext_in. intros p Hp. apply filter_In in Hp. destruct Hp as [_ Hp]. apply Nat.eqb_eq in Hp. now rewrite Hp.
    + cbn [andb]. generalize (seq (nth o (cPtr s) 0) (nth (S o) (cPtr s) 0 - nth o (cPtr s) 0)).
      intros l. induction l; cbn; auto.
Qed.

Lemma spv_rowVals ptr idx vals i j : spv ptr idx vals i j = fold_left add (rowVals ptr idx vals i j) zero.
Proof.
  unfold XsmmSpec.spv, rowVals. generalize (nth (S i) ptr 0 - nth i ptr 0) as n. generalize (nth i ptr 0) as a. intros a n. induction n as [|n IH]; [reflexivity|].
  rewrite seq_S, filter_app, map_app, fold_left_app, <- IH. cbn [AderSpec.sum filter]. destruct (nth (a + n) idx 0 =? j); cbn [map fold_left]; [reflexivity|]. ring.
Qed.
Lemma spv_one ptr idx vals i j v : rowVals ptr idx vals i j = [v] \/ rowVals ptr idx vals i j = [] /\ v = zero -> spv ptr idx vals i j = v.
Proof. rewrite spv_rowVals. intros [->|(-> & ->)]; cbn; [ring|reflexivity]. Qed.

Lemma noEntry_row ptr idx vals i j : noEntry ptr i -> rowVals ptr idx vals i j = [].
Proof. unfold noEntry, rowVals. intros <-. rewrite Nat.sub_diag. reflexivity. Qed.

Lemma ptr_mono (ptr : list nat) n : (forall i, i < n -> nth i ptr 0 <= nth (S i) ptr 0) -> forall i, i <= n -> nth i ptr 0 <= nth n ptr 0.
Proof. intros H. induction n as [|n IH]; intros i Hi; [assert (i = 0) by lia; subst; lia|]. destruct (Nat.eq_dec i (S n)) as [->|]; [lia|]. etransitivity; [apply IH; [intros; apply H; lia|lia]|apply H; lia]. Qed.
Lemma find_row (ptr : list nat) n p : nth 0 ptr 0 = 0 -> p < nth n ptr 0 -> exists o, o < n /\ nth o ptr 0 <= p < nth (S o) ptr 0.
Proof. intros H0. induction n as [|n IH]; intros Hp; [lia|]. destruct (Nat.lt_ge_cases p (nth n ptr 0)) as [H|H]; [destruct (IH H) as (o & Ho & Hr); exists o; split; [lia|auto]|exists n; lia]. Qed.

Lemma rowVals_map (g : T -> T) n ptr idx vals vals' i j : (forall i, i < n -> nth i ptr 0 <= nth (S i) ptr 0) -> i < n ->
  (forall p, p < nth n ptr 0 -> nth p vals' zero = g (nth p vals zero)) -> rowVals ptr idx vals' i j = map g (rowVals ptr idx vals i j).
Proof.
  intros M Hi H. unfold rowVals. rewrite map_map. apply map_ext_in. intros p Hp. apply filter_In in Hp. destruct Hp as [Hp _]. apply in_seq in Hp. apply H.
  assert (X := ptr_mono ptr n M (S i) Hi). lia.
Qed.

(** A matrix [M] with [k] rows and [n] columns is stored in [ptr], [idx], [vals] by columns (or with the roles of rows and columns exchanged). *)
Definition stored (n k : nat) (ptr idx : list nat) (vals : list T) (M : nat -> nat -> T) : Prop :=
  pattern n k ptr idx vals /\ forall c r, c < n -> r < k -> rowVals ptr idx vals c r = [M r c] \/ rowVals ptr idx vals c r = [] /\ M r c = zero.

Lemma stored_spv n k ptr idx vals M c r : stored n k ptr idx vals M -> c < n -> r < k -> spv ptr idx vals c r = M r c.
Proof. intros (_ & H) Hc Hr. apply spv_one. apply H; auto. Qed.
Lemma stored_none n k ptr idx vals M c r : stored n k ptr idx vals M -> c < n -> r < k -> noEntry ptr c -> M r c = zero.
Proof. intros (_ & H) Hc Hr E. destruct (H c r Hc Hr) as [X|(_ & X)]; [|auto]. rewrite noEntry_row in X by auto. discriminate. Qed.

Lemma stored_map (g : T -> T) n k ptr idx vals vals' M M' : g zero = zero -> stored n k ptr idx vals M -> (forall c r, c < n -> r < k -> M' r c = g (M r c)) ->
  nth n ptr 0 <= length vals' -> (forall p, p < nth n ptr 0 -> nth p vals' zero = g (nth p vals zero)) -> stored n k ptr idx vals' M'.
Proof.
  intros G0 ((P1 & P2 & P3 & P4 & P5) & H) HM HL HV. split; [repeat split; auto|]. intros c r Hc Hr. rewrite (rowVals_map g n ptr idx vals vals') by auto.
  rewrite HM by auto. destruct (H c r Hc Hr) as [->|(-> & ->)]; cbn [map]; auto.
Qed.
Lemma stored_ext n k ptr idx vals M M' : stored n k ptr idx vals M -> (forall c r, c < n -> r < k -> M' r c = M r c) -> stored n k ptr idx vals M'.
Proof. intros (P & H) E. split; [auto|]. intros c r Hc Hr. rewrite E by auto. auto. Qed.

(** *** Conversion *)
Section Conv.
Variables (big small isMax : T -> bool) (maxv : T).
(** the predicates on values for a tolerance which is not negative *)
Definition tolOk : Prop := big zero = false /\ isMax zero = false /\ isMax maxv = true /\ forall v, small v = true -> big v = false.
(** all values are zero or above the tolerance *)
Definition clean (a : list T) : Prop := forall v, In v a -> isMax v = false /\ (big v = false -> v = zero).
Hypothesis Tol : tolOk.

Lemma wf_pattern n k (s : comp T) : wfComp n s -> (forall r c, k <= r -> valuesAt (cscEntries zero n s) r c = []) -> pattern n k (cPtr s) (cIdx s) (cVal s).
Proof.
  intros (W1 & W2 & W3 & W4 & W5) O. assert (M : forall i, i < n -> nth i (cPtr s) 0 <= nth (S i) (cPtr s) 0) by (intros i Hi; rewrite <- (Nat.add_1_r i); apply W3; auto).
  split; [lia|]. split; [exact M|]. split; [lia|]. split; [lia|]. intros p Hp. destruct (Nat.lt_ge_cases (nth p (cIdx s) 0) k) as [H|H]; [auto|]. exfalso.
  destruct (find_row (cPtr s) n p W2 Hp) as (o & Ho & Hr). specialize (O (nth p (cIdx s) 0) o H). rewrite csc_at, (proj2 (Nat.ltb_lt _ _) Ho) in O.
  assert (X : In (nth p (cVal s) zero) (rowVals (cPtr s) (cIdx s) (cVal s) o (nth p (cIdx s) 0))).
  { unfold rowVals. apply in_map_iff. exists p. split; [reflexivity|]. apply filter_In. split; [apply in_seq; lia|apply Nat.eqb_refl]. }
  rewrite O in X. destruct X.
Qed.

Lemma toCsc_ok nR nC a subR subC qfma old : length a = nR * nC -> orElse subR nR <= nR -> orElse subC nC <= nC -> clean a ->
  exists s, denseToCsc big small isMax zero maxv nR nC a subR subC qfma old = Ok s /\ nth (orElse subC nC) (cPtr s) 0 = length (cVal s) /\
    stored (orElse subC nC) (orElse subR nR) (cPtr s) (cIdx s) (cVal s) (fun r c => ent nC a r c) /\
    (qfma = false -> forall k, k <= orElse subR nR -> (forall r c, k <= r < orElse subR nR -> c < orElse subC nC -> ent nC a r c = zero) ->
      pattern (orElse subC nC) k (cPtr s) (cIdx s) (cVal s)).
Proof.
  intros La HR HC Cl. destruct Tol as (B0 & M0 & M1 & SB).
  destruct (C36_dense_to_csc big small isMax zero maxv nR nC a subR subC qfma old La HR HC) as (s & E & W & _ & V & O); auto.
  { intros v Hv. apply (Cl v Hv). }
  exists s. split; [exact E|]. split; [apply W|]. split.
  - split; [apply wf_pattern; auto|]. intros c r Hc Hr. specialize (V r c Hr Hc). cbv zeta in V. rewrite csc_at, (proj2 (Nat.ltb_lt _ _) Hc) in V. destruct V as [V1 V2].
    unfold AderSpec.ent. assert (Iv : In (nth (r * nC + c) a zero) a) by (apply nth_In; rewrite La; nia). destruct (big (nth (r * nC + c) a zero)) eqn:Eb; [left; auto|].
    assert (Z := proj2 (Cl _ Iv) Eb). rewrite Z. destruct (V2 eq_refl) as [->|(_ & ->)]; auto.
  - intros Q k Hk Z. apply wf_pattern; [auto|]. intros r c Hr. destruct (Nat.lt_ge_cases r (orElse subR nR)) as [R|R]; [|apply O; auto].
    destruct (Nat.lt_ge_cases c (orElse subC nC)) as [C|C]; [|apply O; auto].
    destruct (V r c R C) as [_ V2]. assert (Z' : nth (r * nC + c) a zero = zero) by (apply (Z r c); auto). rewrite Z' in V2. destruct (V2 B0) as [X|(X & _)]; [exact X|congruence].
Qed.
End Conv.

(** *** Products *)
(** the array has the values of [f] in a block of [nq] quantities and [n] modes, leading dimension [ld] *)
Definition view (nq n ld : nat) (l : list T) (f : nat -> nat -> nat -> T) : Prop :=
  forall z x y, z < nCr -> x < nq -> y < n -> pos nCr ld x y z < length l /\ nth (pos nCr ld x y z) l zero = f z x y.

Lemma pos_lt nq ld x y z : x < nq -> y < ld -> z < nCr -> pos nCr ld x y z < nq * ld * nCr.
Proof.
  intros Hx Hy Hz. unfold pos. assert (x * ld + y + 1 <= nq * ld) by nia. assert ((x * ld + y + 1) * nCr <= nq * ld * nCr) by (apply Nat.mul_le_mono_r; auto).
  rewrite !Nat.mul_add_distr_r in *. lia.
Qed.
Lemma rep_view nq n ld nq' l f : rep nq' ld l f -> nq <= nq' -> n <= ld -> view nq n ld l f.
Proof. intros (Ll & V) H1 H2 z x y Hz Hx Hy. split; [rewrite Ll; apply pos_lt; lia|]. apply V; auto; lia. Qed.
Lemma view_any nq n ld l : n <= ld -> nq * ld * nCr <= length l -> view nq n ld l (fun z x y => nth (pos nCr ld x y z) l zero).
Proof. intros H Ll z x y Hz Hx Hy. split; [assert (X := pos_lt nq ld x y z Hx ltac:(lia) Hz); lia|reflexivity]. Qed.
Lemma view_ext nq n ld l f g : view nq n ld l f -> (forall z x y, z < nCr -> x < nq -> y < n -> f z x y = g z x y) -> view nq n ld l g.
Proof. intros V E z x y Hz Hx Hy. rewrite <- E by auto. auto. Qed.
Lemma view_covers nq n ld l f : view nq n ld l f -> covers nCr nq n ld l.
Proof. intros V x y z Hx Hy Hz. apply V; auto. Qed.

Lemma pos_inj ld x y z x' y' z' : y < ld -> y' < ld -> z < nCr -> z' < nCr -> pos nCr ld x y z = pos nCr ld x' y' z' -> x = x' /\ y = y' /\ z = z'.
Proof.
  intros Hy Hy' Hz Hz' E. unfold pos in E.
  assert (E1 : (x * ld + y) * nCr + z = (x' * ld + y') * nCr + z') by (rewrite !Nat.mul_add_distr_r; exact E).
  assert (U : forall n a b c d, b < n -> d < n -> a * n + b = c * n + d -> a = c /\ b = d).
  { intros n a b c d Hb Hd H. assert (n <> 0) by lia. assert (Q : (a * n + b) / n = (c * n + d) / n) by now rewrite H. rewrite !Nat.div_add_l, !Nat.div_small in Q by auto. split; nia. }
  destruct (U _ _ _ _ _ Hz Hz' E1) as [E2 ->]. destruct (U _ _ _ _ _ Hy Hy' E2) as [-> ->]. auto.
Qed.

Definition same_else (m n ld : nat) (c c' : list T) : Prop :=
  length c' = length c /\ forall p, (forall x y z, x < m -> y < n -> z < nCr -> p <> pos nCr ld x y z) -> nth p c' zero = nth p c zero.
Lemma view_rep nq m n ld c c' fc g : rep nq ld c fc -> n <= ld -> same_else m n ld c c' -> view m n ld c' g ->
  rep nq ld c' (fun z x y => if (x <? m) && (y <? n) then g z x y else fc z x y).
Proof.
  intros (Lc & Vc) Hn (L' & U) V. split; [lia|]. intros z x y Hz Hx Hy. destruct (Nat.ltb_spec x m) as [X|X]; [destruct (Nat.ltb_spec y n) as [Y|Y]|]; cbn [andb]; [apply V; auto| |];
    (rewrite U; [apply Vc; auto|]; intros x' y' z' Hx' Hy' Hz' E; apply pos_inj in E; lia).
Qed.

Variable L : xsmm T.
Hypothesis Lcsr : packedCsr A (xCsr L).
Hypothesis Lcsc : packedCsc A (xCsc L).

Lemma csc_run m n k ldA ldB ldC acc ptr idx vals M a c fa fc : stored n k ptr idx vals M -> n <= ldC -> view m k ldA a fa -> view m n ldC c fc ->
  (forall y, y < n -> noEntry ptr y -> acc = true \/ forall z x, z < nCr -> x < m -> fc z x y = zero) ->
  exists c', xRun L (Build_packed false (Build_gdesc m n k ldA ldB ldC acc) ptr idx nCr) a vals c = Ok c' /\ same_else m n ldC c c' /\
    view m n ldC c' (fun z x y => add (if acc then fc z x y else zero) (sum k (fun l => mul (fa z x l) (M l y)))).
Proof.
  intros St Hn Va Vc NE. destruct (Lcsc (Build_gdesc m n k ldA ldB ldC acc) nCr ptr idx a vals c) as (c' & E & L' & V & U); cbn [gM gN gK gLdA gLdB gLdC gAcc] in *.
  - apply St. - auto. - eapply view_covers; eauto. - eapply view_covers; eauto.
  - exists c'. split; [exact E|]. split; [split; auto|]. intros z x y Hz Hx Hy. destruct (Vc z x y Hz Hx Hy) as [B Vo]. split; [lia|].
    assert (R : add (kept A (Build_gdesc m n k ldA ldB ldC acc) (nth (pos nCr ldC x y z) c zero)) (sum k (fun l => mul (nth (pos nCr ldA x l z) a zero) (spv ptr idx vals y l))) =
      add (if acc then fc z x y else zero) (sum k (fun l => mul (fa z x l) (M l y)))).
    { unfold kept. cbn [gAcc]. rewrite Vo. f_equal. apply (sum_ext A). intros l Hl. rewrite (proj2 (Va z x l Hz Hx Hl)). now rewrite (stored_spv _ _ _ _ _ _ _ _ St Hy Hl). }
    destruct (V x y z Hx Hy Hz) as [->|(Hne & ->)]; [exact R|]. rewrite Vo. rewrite (sum_0 A) by (intros l Hl; rewrite (stored_none _ _ _ _ _ _ _ _ St Hy Hl Hne); ring).
    destruct (NE y Hy Hne) as [->|Z]; [ring|]. destruct acc; [ring|]. rewrite Z by auto. ring.
Qed.
Lemma csr_run m n k ldA ldB ldC acc ptr idx vals M b c fb fc : stored m k ptr idx vals (fun l x => M x l) -> n <= ldC -> view k n ldB b fb -> view m n ldC c fc ->
  (forall x, x < m -> noEntry ptr x -> acc = true \/ forall z y, z < nCr -> y < n -> fc z x y = zero) ->
  exists c', xRun L (Build_packed true (Build_gdesc m n k ldA ldB ldC acc) ptr idx nCr) vals b c = Ok c' /\ same_else m n ldC c c' /\
    view m n ldC c' (fun z x y => add (if acc then fc z x y else zero) (sum k (fun l => mul (M x l) (fb z l y)))).
Proof.
  intros St Hn Vb Vc NE. destruct (Lcsr (Build_gdesc m n k ldA ldB ldC acc) nCr ptr idx vals b c) as (c' & E & L' & V & U); cbn [gM gN gK gLdA gLdB gLdC gAcc] in *.
  - apply St. - auto. - eapply view_covers; eauto. - eapply view_covers; eauto.
  - exists c'. split; [exact E|]. split; [split; auto|]. intros z x y Hz Hx Hy. destruct (Vc z x y Hz Hx Hy) as [B Vo]. split; [lia|].
    assert (R : add (kept A (Build_gdesc m n k ldA ldB ldC acc) (nth (pos nCr ldC x y z) c zero)) (sum k (fun l => mul (spv ptr idx vals x l) (nth (pos nCr ldB l y z) b zero))) =
      add (if acc then fc z x y else zero) (sum k (fun l => mul (M x l) (fb z l y)))).
    { unfold kept. cbn [gAcc]. rewrite Vo. f_equal. apply (sum_ext A). intros l Hl. rewrite (proj2 (Vb z l y Hz Hl Hy)). now rewrite (stored_spv _ _ _ _ _ _ _ _ St Hx Hl). }
    destruct (V x y z Hx Hy Hz) as [->|(Hne & ->)]; [exact R|]. rewrite Vo.
    rewrite (sum_0 A) by (intros l Hl; rewrite (stored_none _ _ _ _ _ _ _ _ St Hx Hl Hne); ring).
    destruct (NE x Hx Hne) as [->|Z]; [ring|]. destruct acc; [ring|]. rewrite Z by auto. ring.
Qed.
End Csc.
