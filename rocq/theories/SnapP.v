(** Proofs about the files of the wave field. *)
From Verif Require Import Util Snap SnapSpec.
From Coq Require Import String Ascii DecimalString DecimalNat Sorted.
Open Scope string_scope.
Open Scope list_scope.

(** *** lists of writes *)
Fixpoint writes {A} (ws : list (nat * A)) (a : list A) : res (list A) := match ws with [] => Ok a | (i, v) :: r => a' <- wr a i v ;; writes r a' end.
Lemma writes_app {A} (x y : list (nat * A)) : forall a, writes (x ++ y) a = (a' <- writes x a ;; writes y a').
Proof. induction x as [|[i v] x IH]; intros a; cbn; [reflexivity|]. destruct (wr a i v); cbn; [apply IH|reflexivity]. Qed.
Lemma for_writes {A} (f : nat -> list (nat * A)) body n : forall i a, (forall k a, i <= k < i + n -> body k a = writes (f k) a) ->
  for_n n i body a = writes (flat_map f (seq i n)) a.
Proof.
  induction n as [|n IH]; intros i a H; cbn; [reflexivity|]. rewrite H, writes_app by lia. destruct (writes (f i) a); cbn; [|reflexivity].
  apply IH. intros k b L. apply H. lia.
Qed.
Lemma for0_writes {A} (f : nat -> list (nat * A)) body n a : (forall k a, k < n -> body k a = writes (f k) a) ->
  for_ 0 n body a = writes (flat_map f (seq 0 n)) a.
Proof. intros H. unfold for_. rewrite Nat.sub_0_r. apply for_writes. intros k b L. apply H. lia. Qed.
Lemma writes_ok {A} (ws : list (nat * A)) : forall a, (forall i v, In (i, v) ws -> i < List.length a) -> (forall i v v', In (i, v) ws -> In (i, v') ws -> v = v') ->
  exists b, writes ws a = Ok b /\ List.length b = List.length a /\ forall i v, In (i, v) ws -> nth_error b i = Some v.
Proof.
  induction ws as [|[i v] ws IH]; intros a B Fn; [exists a; cbn; now repeat split|].
  cbn [writes]. rewrite wr_ok by (apply (B i v); now left). cbn [bind].
  destruct (IH (upd a i v)) as (b & E & L & N).
  - intros j w I. rewrite length_upd. apply (B j w). now right.
  - intros j w w' I I'. apply (Fn j); now right.
  - exists b. rewrite length_upd in L. split; [exact E|]. split; [exact L|]. intros j w [I|I]; [|now apply N]. injection I as -> ->.
    destruct (in_dec Nat.eq_dec j (map fst ws)) as [I|I].
    + apply in_map_iff in I as ((j' & w') & <- & I). cbn. rewrite (N _ _ I). f_equal. apply (Fn j'); [now right|now left].
    + assert (X : forall (ws : list (nat * A)) (a b : list A), writes ws a = Ok b -> ~ In j (map fst ws) -> nth_error b j = nth_error a j).
      { clear. induction ws as [|[k u] ws IH]; cbn; intros a b E I; [now injection E as <-|].
        destruct (wr a k u) as [c|] eqn:W; [|discriminate]. cbn in E. apply wr_inv in W as [_ ->]. rewrite (IH _ _ E) by tauto. apply nth_error_upd_ne. tauto. }
      rewrite (X _ _ _ E I). apply nth_error_upd_eq. apply (B j w). now left.
Qed.

(** *** numbers and names *)
Lemma tos_inj a b : tos a = tos b -> a = b.
Proof.
  unfold tos. intros H. apply (f_equal NilZero.uint_of_string) in H.
  assert (U : forall n, Nat.to_uint n <> Decimal.Nil). { intros n E. pose proof (Unsigned.of_to n) as O. rewrite E in O. cbn in O. subst n. discriminate. }
  rewrite !NilZero.usu in H by apply U. injection H as H. now apply Unsigned.to_uint_inj.
Qed.
Definition digit (c : ascii) : Prop := In c ["0"; "1"; "2"; "3"; "4"; "5"; "6"; "7"; "8"; "9"]%char.
Fixpoint allc (P : ascii -> Prop) (s : string) : Prop := match s with EmptyString => True | String c r => P c /\ allc P r end.
Lemma tos_digits n : allc digit (tos n).
Proof.
  unfold tos. generalize (Nat.to_uint n). intros d.
  assert (X : forall d, allc digit (NilEmpty.string_of_uint d)). { induction d0; cbn; auto; split; auto; unfold digit; cbn; tauto. }
  unfold NilZero.string_of_uint. destruct d; try (apply X). cbn. split; [unfold digit; cbn; tauto|easy].
Qed.
Lemma app_cancel (p a b : string) : (p ++ a = p ++ b)%string -> a = b.
Proof. induction p as [|c p IH]; cbn; [easy|]. intros H. injection H as H. auto. Qed.
(** a character separates *)
Lemma sep_inj (P : ascii -> Prop) c (u v a b : string) : ~ P c -> allc P u -> allc P v -> (u ++ String c a = v ++ String c b)%string -> u = v /\ a = b.
Proof.
  intros NP. revert v. induction u as [|x u IH]; intros [|y v]; cbn; intros U V E.
  - injection E as E. auto.
  - injection E as -> _. tauto.
  - injection E as -> _. tauto.
  - injection E as -> E. destruct (IH v) as [-> ->]; tauto.
Qed.
Lemma us_digit : ~ digit "_"%char. Proof. unfold digit. cbn. intuition discriminate. Qed.
Lemma sl_digit : ~ digit "/"%char. Proof. unfold digit. cbn. intuition discriminate. Qed.
Lemma dot_digit : ~ digit "."%char. Proof. unfold digit. cbn. intuition discriminate. Qed.

Definition varName (run q : nat) : string := ("crun_" ++ tos run ++ "_var_" ++ tos q)%string.
Lemma varName_inj a b a' b' : varName a b = varName a' b' -> a = a' /\ b = b'.
Proof.
  unfold varName. intros H. apply app_cancel in H. change ("_var_" ++ tos b)%string with (String "_" ("var_" ++ tos b)) in H. change ("_var_" ++ tos b')%string with (String "_" ("var_" ++ tos b')) in H.
  apply (sep_inj digit) in H as [H1 H2]; [|apply us_digit|apply tos_digits|apply tos_digits]. apply tos_inj in H1. apply app_cancel in H2. apply tos_inj in H2. auto.
Qed.
Lemma file_inj out r k k' : (out ++ "_" ++ tos r ++ "_" ++ tos k ++ ".vtk" = out ++ "_" ++ tos r ++ "_" ++ tos k' ++ ".vtk")%string -> k = k'.
Proof.
  intros H. do 4 apply app_cancel in H. change ".vtk" with (String "." "vtk") in H. apply (sep_inj digit) in H as [H _]; [|apply dot_digit|apply tos_digits|apply tos_digits].
  now apply tos_inj.
Qed.
Lemma str_app_assoc a b c : ((a ++ b) ++ c = a ++ (b ++ c))%string.
Proof. induction a as [|x a IH]; cbn; [reflexivity|]. now rewrite IH. Qed.
Lemma str_app_nil a : (a ++ "" = a)%string.
Proof. induction a as [|x a IH]; cbn; [reflexivity|]. now rewrite IH. Qed.

(** *** directories *)
Lemma cutFirst_comp c r : component c -> cutFirst (c ++ String "/" r) = Some (c, r).
Proof.
  intros [_ H]. induction c as [|x c IH]; cbn; [reflexivity|].
  assert (X : isSep x = false). { unfold isSep. destruct (H x) as [A B]; [now left|]. apply Ascii.eqb_neq in A, B. now rewrite A, B. }
  rewrite X. cbn in IH. rewrite IH; [reflexivity|]. intros y I. apply H. now right.
Qed.
Lemma comp_neq c : component c -> (c =? "") = false /\ (c =? "/") = false.
Proof.
  intros [N H]. split; apply String.eqb_neq; [exact N|]. intros ->. destruct (H "/"%char); [now left|congruence].
Qed.

Lemma createLoop_ok cs : Forall component cs -> forall fuel cr c, component c -> List.length cs < fuel ->
  createLoop fuel cr c (path cs) = Ok (map (fun k => (cr ++ path (firstn k (c :: cs)))%string) (seq 1 (S (List.length cs)))).
Proof.
  induction cs as [|d cs IH]; intros FA fuel cr c C L; (destruct fuel as [|fuel]; [cbn in L; lia|]); destruct (comp_neq c C) as [E1 E2].
  - cbn -[String.eqb]. rewrite E1, E2. cbn. destruct fuel; reflexivity.
  - inversion FA as [|? ? D FA']; subst. cbn -[String.eqb seq map firstn]. rewrite E1, E2. unfold splitPathFirst. cbn [append]. rewrite cutFirst_comp by exact D.
    rewrite IH by (auto; cbn in L; lia). cbn [bind].
    change (seq 1 (S (S (List.length cs)))) with (1 :: seq 2 (S (List.length cs))). cbn [map firstn path]. rewrite str_app_nil. f_equal. f_equal.
    rewrite <- (seq_shift _ 1), map_map. apply map_ext_in. intros k I. apply in_seq in I. destruct k as [|k]; [lia|].
    rewrite !str_app_assoc. cbn [firstn path]. reflexivity.
Qed.

Lemma createDir_ok absolute cs fuel dir : cs <> [] -> Forall component cs -> (dir ++ "/")%string = (root absolute ++ path cs)%string -> S (List.length cs) < fuel ->
  createDir fuel dir = Ok (parents absolute cs).
Proof.
  intros NE FA E L. unfold createDir. rewrite E. destruct cs as [|c cs]; [congruence|]. inversion FA as [|? ? C FA']; subst. unfold parents, root. destruct absolute.
  - unfold splitPathFirst. cbn -[createLoop path]. cbn [path].
    destruct fuel as [|fuel]; [cbn in L; lia|]. cbn -[createLoop path seq map firstn]. cbn [createLoop]. cbn -[createLoop path seq map firstn].
    unfold splitPathFirst. cbn [path append]. rewrite cutFirst_comp by exact C. rewrite createLoop_ok by (auto; cbn in L; lia). reflexivity.
  - unfold splitPathFirst. cbn [path append]. rewrite cutFirst_comp by exact C. destruct (comp_neq c C) as [-> _].
    rewrite createLoop_ok by (auto; cbn in L; lia). reflexivity.
Qed.

(** *** printed elements *)
Lemma asc_seq_filter f n : forall lo, ascending (filter f (seq lo n)) /\ forall x, In x (filter f (seq lo n)) -> lo <= x.
Proof.
  induction n as [|n IH]; intros lo; cbn; [easy|]. destruct (IH (S lo)) as [A B]. destruct (f lo).
  - split; [|intros x [<-|I]; [lia|specialize (B x I); lia]].
    destruct (filter f (seq (S lo) n)) as [|y l]; [easy|]. split; [|exact A]. specialize (B y ltac:(now left)). lia.
  - split; [exact A|]. intros x I. specialize (B x I). lia.
Qed.
Lemma land_has sp t : N.land t sp = sp <-> hasTypes sp t.
Proof.
  unfold hasTypes. split.
  - intros E b H. apply (f_equal (fun x => N.testbit x b)) in E. rewrite N.land_spec, H in E. now destruct (N.testbit t b).
  - intros H. apply N.bits_inj. intros b. rewrite N.land_spec. specialize (H b). destruct (N.testbit sp b); [now rewrite H|]. apply andb_false_r.
Qed.
Lemma elPrint_exact nEls spType all sp : exactly (fun el => el < nEls /\ (sp = all \/ hasTypes sp (spType el))) (elPrint nEls spType all sp).
Proof.
  split; [apply asc_seq_filter|]. intros i. unfold elPrint. rewrite filter_In, in_seq, orb_true_iff, !N.eqb_eq, land_has. intuition lia.
Qed.

Lemma dead_ok ep : ascending ep -> exists n, deadLoop ep = Ok n.
Proof.
  intros A. unfold deadLoop, forb. rewrite Nat.sub_0_r.
  set (body := fun el i => _).
  assert (X : forall n lo i, i < List.length ep -> (forall x, In x (skipn i ep) -> lo <= x) -> lo + n = last ep 0 + 1 -> exists r, forb_n n lo body i = Ok r).
  { induction n as [|n IH]; intros lo i Li G E; [eexists; reflexivity|]. cbn [forb_n]. unfold body at 1. rewrite (rd_ok _ _ 0) by exact Li. cbn [bind].
    assert (SK : skipn i ep = nth i ep 0 :: skipn (S i) ep). { clear -Li. revert i Li. induction ep as [|y l IH]; intros [|i] L; cbn in *; try lia; [reflexivity|]. rewrite IH by lia. reflexivity. }
    assert (AS : forall l, ascending l -> forall x y r, l = x :: r -> In y r -> x < y).
    { clear. induction l as [|a l IH]; intros Ha x y r El I; [discriminate|]. injection El as <- <-. destruct l as [|b l]; [destruct I|].
      destruct Ha as [H1 H2]. destruct I as [<-|I]; [exact H1|]. specialize (IH H2 b y l eq_refl I). lia. }
    assert (ASK : ascending (skipn i ep)). { clear -A. revert i. induction ep as [|a l IH]; intros [|i]; try easy. cbn. apply IH. destruct l; [easy|]. now destruct A. }
    destruct (Nat.eqb_spec lo (nth i ep 0)) as [EQ|NE]; cbn [bind].
    - destruct (Nat.leb_spec (List.length ep) (S i)); [eexists; reflexivity|]. apply IH; [lia| |lia].
      intros x I. pose proof (AS _ ASK _ x _ SK I). lia.
    - apply IH; [exact Li| |lia]. intros x I. rewrite SK in I, G. destruct I as [<-|I].
      + specialize (G (nth i ep 0) ltac:(now left)). lia.
      + pose proof (AS _ ASK _ x _ SK I). specialize (G (nth i ep 0) ltac:(now left)). lia. }
  destruct ep as [|a l] eqn:E; [eexists; reflexivity|]. rewrite <- E in *. replace (List.length ep =? 0)%nat with false by (subst; reflexivity).
  apply X; [subst; cbn; lia|intros; lia|lia].
Qed.

(** *** buffers *)
Lemma in_flat_seq {A} (f : nat -> list A) n x : In x (flat_map f (seq 0 n)) <-> exists i, i < n /\ In x (f i).
Proof. rewrite in_flat_map. split; intros (i & H1 & H2); exists i; rewrite in_seq in *; intuition lia. Qed.
Lemma flat2 n a b c d : b < n -> d < n -> a * n + b = c * n + d -> a = c /\ b = d.
Proof. intros. destruct (Nat.div_mod_unique n a c b d); auto; try lia. Qed.

(** array of two indices *)
Lemma loops2 {A} (n m : nat) (ix : nat -> nat -> nat) (v : nat -> nat -> A) a body :
  (forall i a, i < n -> body i a = for_ 0 m (fun j a => wr a (ix i j) (v i j)) a) ->
  (forall i j, i < n -> j < m -> ix i j < List.length a) ->
  (forall i j i' j', i < n -> j < m -> i' < n -> j' < m -> ix i j = ix i' j' -> i = i' /\ j = j') ->
  exists b, for_ 0 n body a = Ok b /\ List.length b = List.length a /\ forall i j, i < n -> j < m -> nth_error b (ix i j) = Some (v i j).
Proof.
  intros HB HI HU. set (f := fun i => flat_map (fun j => [(ix i j, v i j)]) (seq 0 m)).
  assert (M : forall i x, In (i, x) (flat_map f (seq 0 n)) <-> exists k l, k < n /\ l < m /\ i = ix k l /\ x = v k l).
  { intros i x. rewrite in_flat_seq. unfold f. split.
    - intros (k & K & I). apply in_flat_seq in I as (l & Ll & [E|[]]). injection E as <- <-. now exists k, l.
    - intros (k & l & K & Ll & -> & ->). exists k. split; [exact K|]. apply in_flat_seq. exists l. split; [exact Ll|now left]. }
  destruct (writes_ok (flat_map f (seq 0 n)) a) as (b & E & L & N).
  - intros i x I. apply (M i x) in I as (k & l & K & Ll & -> & _). auto.
  - intros i x y I J. apply (M i x) in I as (k & l & K & Ll & -> & ->). apply (M _ y) in J as (k' & l' & K' & Ll' & E & ->).
    destruct (HU k l k' l'); auto; now subst.
  - exists b. split; [|split; [exact L|]].
    + rewrite <- E. apply for0_writes. intros i c Hi. rewrite HB by exact Hi. unfold f. apply for0_writes. intros j c' Hj. cbn. destruct (wr c' (ix i j) (v i j)); reflexivity.
    + intros i j Hi Hj. apply N. apply M. now exists i, j.
Qed.

Section W.
  Context {F D : Type} (fC : D -> F) (fD : D -> F) (nan : F) (nul : nat) (nQ nC nV : nat).
  Context (veCrds : nat -> nat -> D) (elVe : nat -> nat -> nat).

  Definition vtkOk (nVe : nat) (ep : list nat) (v : vtk) : Prop :=
    List.length (coordsVe v) = nVe * 3 /\ (forall ve di, ve < nVe -> di < 3 -> nth_error (coordsVe v) (ve * 3 + di) = Some (fC (veCrds ve di))) /\
    List.length (connElVe v) = List.length ep * nV /\ (forall j id ve, nth_error ep j = Some id -> ve < nV -> nth_error (connElVe v) (j * nV + ve) = Some (elVe id ve)) /\
    List.length (dofsB v) = List.length ep * nQ * nC /\
    List.length (names v) = nC * nQ /\ List.length (ptrs v) = nC * nQ /\
    (forall r q, r < nC -> q < nQ -> nth_error (names v) (r * nQ + q) = Some (varName r q) /\ nth_error (ptrs v) (r * nQ + q) = Some (List.length ep * (nQ * r + q))).

  Lemma pair_for n (bn : nat -> list string -> res (list string)) (bp : nat -> list nat -> res (list nat)) : forall i x y x' y',
    for_n n i bn x = Ok x' -> for_n n i bp y = Ok y' ->
    for_n n i (fun k st => a <- bn k (fst st) ;; b <- bp k (snd st) ;; Ok (a, b)) (x, y) = Ok (x', y').
  Proof.
    induction n as [|n IH]; intros i x y x' y' H1 H2; cbn in *; [injection H1 as <-; injection H2 as <-; reflexivity|].
    destruct (bn i x) as [a|]; [|discriminate]. destruct (bp i y) as [b|]; [|discriminate]. cbn in *. now apply IH.
  Qed.
  Lemma for_n_ext {S} (b b' : nat -> S -> res S) n : forall i s, (forall k s, i <= k < i + n -> b k s = b' k s) -> for_n n i b s = for_n n i b' s.
  Proof. induction n as [|n IH]; intros i s H; cbn; [reflexivity|]. rewrite H by lia. destruct (b' i s); cbn; [|reflexivity]. apply IH. intros k t L. apply H. lia. Qed.

  Lemma ptrs_names nP : exists ns ps, for_ 0 nC (fun run => for_ 0 nQ (fun q st =>
             n <- wr (fst st) (run * nQ + q) ("crun_" ++ tos run ++ "_var_" ++ tos q)%string ;;
             p <- wr (snd st) (run * nQ + q) (nP * (nQ * run + q)) ;; Ok (n, p))) (repeat "" (nC * nQ), repeat nul (nQ * nC)) = Ok (ns, ps) /\
     List.length ns = nC * nQ /\ List.length ps = nC * nQ /\
     forall r q, r < nC -> q < nQ -> nth_error ns (r * nQ + q) = Some (varName r q) /\ nth_error ps (r * nQ + q) = Some (nP * (nQ * r + q)).
  Proof.
    destruct (loops2 nC nQ (fun r q => r * nQ + q) varName (repeat "" (nC * nQ)) (fun r => for_ 0 nQ (fun q a => wr a (r * nQ + q) (varName r q)))) as (ns & E1 & L1 & N1).
    { auto. } { intros r q R Q. rewrite repeat_length. nia. } { intros r q r' q' R Q R' Q' E. now apply (flat2 nQ). }
    destruct (loops2 nC nQ (fun r q => r * nQ + q) (fun r q => nP * (nQ * r + q)) (repeat nul (nQ * nC)) (fun r => for_ 0 nQ (fun q a => wr a (r * nQ + q) (nP * (nQ * r + q))))) as (ps & E2 & L2 & N2).
    { auto. } { intros r q R Q. rewrite repeat_length. nia. } { intros r q r' q' R Q R' Q' E. now apply (flat2 nQ). }
    exists ns, ps. rewrite repeat_length in L1, L2. split; [|split; [exact L1|split; [lia|intros; split; auto]]].
    unfold for_ in *. rewrite !Nat.sub_0_r in *.
    rewrite <- (pair_for nC _ _ 0 _ _ _ _ E1 E2). apply for_n_ext. intros r [x y] R. cbn [fst snd].
    assert (X : forall n i x y, for_n n i (fun q st => n <- wr (fst st) (r * nQ + q) ("crun_" ++ tos r ++ "_var_" ++ tos q)%string ;; p <- wr (snd st) (r * nQ + q) (nP * (nQ * r + q)) ;; Ok (n, p)) (x, y)
       = (a <- for_n n i (fun q a => wr a (r * nQ + q) (varName r q)) x ;; b <- for_n n i (fun q a => wr a (r * nQ + q) (nP * (nQ * r + q))) y ;; Ok (a, b))).
    2:{ apply X. }
    clear.
    induction n as [|n IH]; intros i x y; [reflexivity|]. cbn [for_n fst snd]. fold (varName r i). destruct (wr x (r * nQ + i) (varName r i)) as [a|e] eqn:Wx; cbn [bind].
    - destruct (wr y (r * nQ + i) (nP * (nQ * r + i))) as [b|e] eqn:Wy; cbn [bind]; [apply IH|].
      destruct (for_n n (S i) _ a) as [z|e'] eqn:Z; cbn [bind]; [reflexivity|].
      assert (e = Eub). { unfold wr in Wy. destruct (Nat.ltb _ _); [discriminate|now injection Wy as <-]. }
      assert (forall m j u e, for_n m j (fun q a => wr a (r * nQ + q) (varName r q)) u = Er e -> e = Eub).
      { clear. induction m as [|m IH]; intros j u e; cbn; [discriminate|]. unfold wr at 1. destruct (Nat.ltb _ _); cbn; [apply IH|]. intros H. now injection H as <-. }
      apply H0 in Z. congruence.
    - reflexivity.
  Qed.

  Lemma vtk_init_ok nVe ep : exists v, vtk_init fC nan nul nQ nC nV nVe ep veCrds elVe = Ok v /\ vtkOk nVe ep v.
  Proof.
    unfold vtk_init. destruct (ptrs_names (List.length ep)) as (ns & ps & -> & L1 & L2 & NP). cbn [bind].
    destruct (loops2 nVe 3 (fun ve di => ve * 3 + di) (fun ve di => fC (veCrds ve di)) (repeat nan (nVe * 3)) (fun ve => for_ 0 3 (fun di a => wr a (ve * 3 + di) (fC (veCrds ve di))))) as (cs & -> & Lc & Nc).
    { auto. } { intros. rewrite repeat_length. lia. } { intros. now apply (flat2 3). }
    cbn [bind].
    destruct (loops2 (List.length ep) nV (fun el ve => el * nV + ve) (fun el ve => elVe (nth el ep 0) ve) (repeat nul (List.length ep * nV))
      (fun el a => id <- rd ep el ;; for_ 0 nV (fun ve a => wr a (el * nV + ve) (elVe id ve)) a)) as (cn & -> & Ln & Nn).
    { intros i a Hi. now rewrite (rd_ok _ _ 0) by exact Hi. } { intros. rewrite repeat_length. nia. } { intros. now apply (flat2 nV). }
    cbn [bind]. eexists. split; [reflexivity|]. rewrite repeat_length in Lc, Ln. unfold vtkOk. cbn. rewrite repeat_length. repeat split; auto.
    - intros j id ve Ej Hve. rewrite Nn; [|apply nth_error_Some; congruence|exact Hve]. now rewrite (nth_error_nth _ _ _ Ej).
    - now apply NP.
    - now apply NP.
  Qed.

  Definition callOk (nVe : nat) (ep : list nat) (dofs : nat -> nat -> nat -> nat -> D) (c : @call F) : Prop :=
    cCells c = List.length ep /\ List.length (cPts c) = nVe * 3 /\ List.length (cVars c) = nC * nQ /\
    (forall ve di, ve < nVe -> di < 3 -> nth_error (cPts c) (ve * 3 + di) = Some (fC (veCrds ve di))) /\
    (forall j id, nth_error ep j = Some id ->
       (forall ve, ve < nV -> nth_error (cConn c) (j * nV + ve) = Some (elVe id ve)) /\
       (forall r q, r < nC -> q < nQ -> readVar c (varName r q) j = Some (fD (dofs id q 0 r)))).

  Lemma loops3 (nP : nat) (v : nat -> nat -> nat -> F) (body : nat -> list F -> res (list F)) a : List.length a = nP * nQ * nC ->
    (forall el a, el < nP -> body el a = for_ 0 nQ (fun q => for_ 0 nC (fun cr a => wr a (nP * (nQ * cr + q) + el) (v el q cr))) a) ->
    exists b, for_ 0 nP body a = Ok b /\ List.length b = List.length a /\ forall el q cr, el < nP -> q < nQ -> cr < nC -> nth_error b (nP * (nQ * cr + q) + el) = Some (v el q cr).
  Proof.
    intros LA HB. set (f := fun el => flat_map (fun q => flat_map (fun cr => [(nP * (nQ * cr + q) + el, v el q cr)]) (seq 0 nC)) (seq 0 nQ)).
    assert (M : forall i x, In (i, x) (flat_map f (seq 0 nP)) <-> exists el q cr, el < nP /\ q < nQ /\ cr < nC /\ i = nP * (nQ * cr + q) + el /\ x = v el q cr).
    { intros i x. rewrite in_flat_seq. unfold f. split.
      - intros (k & K & I). apply in_flat_seq in I as (l & Ll & I). apply in_flat_seq in I as (m & Lm & [E|[]]). injection E as <- <-. now exists k, l, m.
      - intros (k & l & m & K & Ll & Lm & -> & ->). exists k. split; [exact K|]. apply in_flat_seq. exists l. split; [exact Ll|]. apply in_flat_seq. exists m. split; [exact Lm|now left]. }
    destruct (writes_ok (flat_map f (seq 0 nP)) a) as (b & E & L & N).
    - intros i x I. apply M in I as (k & l & m & K & Ll & Lm & -> & _). rewrite LA.
      assert (nQ * m + l < nQ * nC) by nia. nia.
    - intros i x y I J. apply M in I as (k & l & m & K & Ll & Lm & -> & ->). apply M in J as (k' & l' & m' & K' & Ll' & Lm' & E & ->).
      assert (E2 : (nQ * m + l) * nP + k = (nQ * m' + l') * nP + k') by lia. apply flat2 in E2 as [E3 ->]; [|lia|lia].
      assert (E4 : m * nQ + l = m' * nQ + l') by lia. apply flat2 in E4 as [-> ->]; [reflexivity|lia|lia].
    - exists b. split; [|split; [exact L|]].
      + rewrite <- E. apply for0_writes. intros i c Hi. rewrite HB by exact Hi. unfold f. apply for0_writes. intros j c' Hj. apply for0_writes. intros k c'' Hk. cbn. destruct (wr _ _ _); reflexivity.
      + intros i j k Hi Hj Hk. apply N. apply M. now exists i, j, k.
  Qed.

  Lemma find_var v ep nVe r q : vtkOk nVe ep v -> r < nC -> q < nQ -> find (fun x => fst x =? varName r q) (combine (names v) (ptrs v)) = Some (varName r q, List.length ep * (nQ * r + q)).
  Proof.
    intros (_ & _ & _ & _ & _ & L1 & L2 & N) R Q. destruct (N r q R Q) as [N1 N2].
    assert (U : forall i, nth_error (names v) i = Some (varName r q) -> i = r * nQ + q).
    { intros i E. assert (Hi : i < nC * nQ) by (rewrite <- L1; apply nth_error_Some; congruence).
      assert (QQ : nQ <> 0) by lia. pose proof (Nat.div_mod i nQ QQ) as DM. pose proof (Nat.mod_upper_bound i nQ QQ).
      assert (D1 : i / nQ < nC) by (apply Nat.div_lt_upper_bound; lia).
      destruct (N (i / nQ) (i mod nQ) D1 H) as [M1 _]. replace (i / nQ * nQ + i mod nQ) with i in M1 by lia. rewrite M1 in E. apply (f_equal (fun o => match o with Some x => x | None => "" end)) in E. apply varName_inj in E as [E1 E2]. lia. }
    revert U N1 N2. generalize (r * nQ + q) as i0. generalize (List.length ep * (nQ * r + q)) as p. generalize (varName r q) as nm. assert (L : List.length (names v) = List.length (ptrs v)) by lia. revert L. clear.
    generalize (names v) as ns, (ptrs v) as ps. induction ns as [|n ns IH]; intros [|x ps] L nm p i0 U N1 N2; try discriminate; [destruct i0; discriminate|].
    cbn [combine find fst]. destruct (String.eqb_spec n nm) as [->|NE].
    - assert (i0 = 0) by (symmetry; apply (U 0); reflexivity). subst. cbn in N2. injection N2 as <-. reflexivity.
    - destruct i0 as [|i0]; [cbn in N1; congruence|]. apply (IH ps ltac:(cbn in L; lia) nm p i0); auto. intros i E. specialize (U (S i) E). lia.
  Qed.

  Lemma vtk_write_ok out bin nVe ep dofs v0 : match v0 with None => True | Some v => vtkOk nVe ep v end ->
    exists c v, vtk_write fC fD nan nul nQ nC nV out bin nVe ep veCrds elVe dofs v0 = Ok (c, v) /\ vtkOk nVe ep v /\ cName c = out /\ cBin c = bin /\ callOk nVe ep dofs c.
  Proof.
    intros H0. unfold vtk_write.
    assert (X : exists v, (match v0 with Some v => Ok v | None => vtk_init fC nan nul nQ nC nV nVe ep veCrds elVe end) = Ok v /\ vtkOk nVe ep v).
    { destruct v0 as [v|]; [now exists v|]. apply vtk_init_ok. }
    destruct X as (v & -> & V). cbn [bind]. pose proof V as (V1 & V2 & V3 & V4 & V5 & V6 & V7 & V8).
    destruct (loops3 (List.length ep) (fun el q cr => fD (dofs (nth el ep 0) q 0 cr))
      (fun el a => id <- rd ep el ;; for_ 0 nQ (fun q => for_ 0 nC (fun cr a => wr a (List.length ep * (nQ * cr + q) + el) (fD (dofs id q 0 cr)))) a) (dofsB v) V5) as (b & -> & Lb & Nb).
    { intros el a Hel. now rewrite (rd_ok _ _ 0) by exact Hel. }
    cbn [bind coordsVe connElVe names ptrs]. eexists. eexists. split; [reflexivity|]. split; [|split; [reflexivity|split; [reflexivity|]]].
    { unfold vtkOk. cbn. repeat split; auto; try lia; now apply V8. }
    unfold callOk. cbn [cCells cPts cVars cConn]. split; [reflexivity|]. split; [exact V1|]. split; [rewrite combine_length; lia|]. split; [exact V2|].
    intros j id Ej. assert (Hj : j < List.length ep) by (apply nth_error_Some; congruence). split.
    - intros ve Hve. now apply V4.
    - intros r q R Q. unfold readVar. cbn [cVars cCells cVals]. rewrite (find_var v ep nVe r q V R Q). cbn [snd].
      destruct (Nat.ltb_spec j (List.length ep)); [|lia]. rewrite Nb by assumption. now rewrite (nth_error_nth _ _ _ Ej).
  Qed.

  Lemma wf_writes_ok w : match wfVtk w with None => True | Some v => vtkOk (wfNVe w) (wfPrint w) v end -> 0 < List.length (wfPrint w) ->
    forall dofss, exists cs, wf_writes fC fD nan nul nQ nC nV veCrds elVe dofss w = Ok cs /\ List.length cs = List.length dofss /\
      forall k d, nth_error dofss k = Some d -> exists c, nth_error cs k = Some (Some c) /\
        cName c = (wfOut w ++ "_" ++ tos (wfRank w) ++ "_" ++ tos (wfStep w + k) ++ ".vtk")%string /\
        cBin c = (match wfType w with wBinary => true | _ => false end) /\ callOk (wfNVe w) (wfPrint w) d c.
  Proof.
    intros V P dofss. revert w V P. induction dofss as [|d ds IH]; intros w V P.
    - exists []. split; [reflexivity|]. split; [reflexivity|]. intros [|k] d E; discriminate.
    - cbn [wf_writes]. unfold wf_write. destruct (Nat.ltb_spec 0 (List.length (wfPrint w))); [|lia].
      destruct (vtk_write_ok (wfOut w ++ "_" ++ tos (wfRank w) ++ "_" ++ tos (wfStep w) ++ ".vtk")%string (match wfType w with wBinary => true | _ => false end) (wfNVe w) (wfPrint w) d (wfVtk w) V) as (c & v & -> & Vv & Cn & Cb & CO).
      cbn [bind]. destruct (IH (mkWf (wfType w) (S (wfStep w)) (wfOut w) (wfRank w) (wfNVe w) (wfPrint w) (Some v))) as (cs & -> & L & N); [exact Vv|exact P|].
      cbn [bind]. exists (Some c :: cs). split; [reflexivity|]. split; [cbn; lia|].
      intros [|k] d' E.
      + injection E as <-. exists c. rewrite Nat.add_0_r. auto.
      + destruct (N k d' E) as (c' & H1 & H2 & H3 & H4). exists c'. cbn [wfOut wfRank wfStep wfType wfNVe wfPrint] in *. rewrite <- plus_n_Sm in *. auto.
  Qed.
  Lemma wf_writes_none w : wfPrint w = [] -> forall dofss, wf_writes fC fD nan nul nQ nC nV veCrds elVe dofss w = Ok (map (fun _ => None) dofss).
  Proof.
    intros P dofss. revert w P. induction dofss as [|d ds IH]; intros w P; [reflexivity|]. cbn [wf_writes]. unfold wf_write. rewrite P. cbn.
    rewrite IH by reflexivity. reflexivity.
  Qed.
End W.

(** *** the path of the wave field *)
Lemma cutLast_none f : (forall c, In c (list_ascii_of_string f) -> c <> "/"%char /\ c <> "\"%char) -> cutLast f = None.
Proof.
  induction f as [|x f IH]; cbn; intros H; [reflexivity|]. rewrite IH by (intros; apply H; now right).
  assert (X : isSep x = false). { unfold isSep. destruct (H x) as [A B]; [now left|]. apply Ascii.eqb_neq in A, B. now rewrite A, B. }
  now rewrite X.
Qed.
Lemma split_last p f : component f -> splitPathLast (p ++ String "/" f) = (p, f).
Proof.
  intros [_ H]. assert (E : cutLast (p ++ String "/" f) = Some (p, f)); [|unfold splitPathLast; now rewrite E].
  induction p as [|x p IH]; cbn; [now rewrite cutLast_none|]. now rewrite IH.
Qed.
Lemma path_app a b : path (a ++ b) = (path a ++ path b)%string.
Proof. induction a as [|x a IH]; cbn [app path]; [reflexivity|]. rewrite IH, !str_app_assoc. reflexivity. Qed.
Lemma path_slash absolute cs : absolute = true \/ cs <> [] -> exists p, (root absolute ++ path cs = p ++ "/")%string.
Proof.
  intros H. destruct cs as [|c cs] using rev_ind.
  - destruct H as [->|H]; [|congruence]. now exists "".
  - exists (root absolute ++ path cs ++ c)%string. rewrite path_app. cbn [path]. now rewrite !str_app_assoc.
Qed.
Lemma tos_component n : component (tos n).
Proof.
  pose proof (tos_digits n) as DG. split.
  - intros E. unfold tos, NilZero.string_of_uint in E. destruct (Nat.to_uint n); discriminate.
  - intros c. revert DG. generalize (tos n). induction s as [|x s IH]; cbn [allc list_ascii_of_string In]; [easy|]. intros [D1 D2] [<-|I]; [|auto].
    split; intros ->; revert D1; unfold digit; cbn; intuition discriminate.
Qed.
