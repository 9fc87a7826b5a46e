(** Proofs about the initialisation of the receivers. *)
From Coq Require Import QArith Qabs Sorted.
From Verif Require Import Util Series Distr Receivers RecvProofs.
Open Scope nat_scope.

(** positions at which a list changes its value *)
Definition firsts (l : list nat) : list nat :=
  filter (fun p => (p =? 0) || negb (nth (p - 1) l 0 =? nth p l 0)) (seq 0 (length l)).

Lemma filter_ext_in' {A} (f g : A -> bool) l : (forall x, In x l -> f x = g x) -> filter f l = filter g l.
Proof. intros H. induction l as [|x l IH]; cbn; [auto|]. rewrite H by (left; auto). rewrite IH by (intros; apply H; right; auto). reflexivity. Qed.

Lemma firsts_snoc l x : firsts (l ++ [x]) = firsts l ++ (if (length l =? 0) || negb (nth (length l - 1) l 0 =? x) then [length l] else []).
Proof.
  unfold firsts. rewrite app_length. cbn [length]. rewrite Nat.add_1_r, seq_snoc, filter_app. f_equal.
  - apply filter_ext_in'. intros p Hp. apply in_seq in Hp. rewrite !app_nth1 by lia. reflexivity.
  - cbn [filter]. rewrite Nat.add_0_l. rewrite (app_nth2 l [x] 0 (le_n (length l))), Nat.sub_diag. cbn [nth].
    destruct (Nat.eqb_spec (length l) 0) as [E|E]; cbn [orb]; [reflexivity|]. rewrite app_nth1 by lia. reflexivity.
Qed.

Definition segments (F E l : list nat) : Prop :=
  length F = length E /\
  forall i e, nth_error E i = Some e -> exists a, nth_error F i = Some a /\ a < nth (S i) F (length l) <= length l /\
    forall p x, nth_error l p = Some x -> (x = e <-> a <= p < nth (S i) F (length l)).

Lemma StronglySorted_snoc {A} (R : A -> A -> Prop) l x : StronglySorted R l -> Forall (fun y => R y x) l -> StronglySorted R (l ++ [x]).
Proof.
  intros S F. induction S as [|y l S IH FY]; cbn; [repeat constructor|]. inversion F; subst. constructor; [auto|]. apply Forall_app. split; auto.
Qed.

Lemma StronglySorted_app_l {A} (R : A -> A -> Prop) l l' : StronglySorted R (l ++ l') -> StronglySorted R l /\ forall x y, In x l -> In y l' -> R x y.
Proof.
  induction l as [|z l IH]; cbn; intros H; [split; [constructor|intros ? ? []]|]. inversion H as [|? ? S F]; subst. destruct (IH S) as [I1 I2]. rewrite Forall_app in F. split.
  - constructor; tauto.
  - intros x y [->|Hx] Hy; [destruct F as [_ F]; rewrite Forall_forall in F; auto|auto].
Qed.

Lemma firsts_spec l : StronglySorted le l -> let F := firsts l in let E := map (fun p => nth p l 0) F in
  StronglySorted lt E /\ (forall e, In e E <-> In e l) /\ segments F E l.
Proof.
  induction l as [|x l IH] using rev_ind; intros SL F E.
  { subst F E. cbn. split; [constructor|]. split; [reflexivity|]. split; [reflexivity|]. intros [|i] e H; discriminate. }
  apply StronglySorted_app_l in SL as [SL LE]. destruct (IH SL) as (I1 & I2 & I3 & I4). clear IH. subst F E.
  set (F := firsts l) in *. set (E := map (fun p => nth p l 0) F) in *. rewrite firsts_snoc. fold F. set (n := length l) in *.
  assert (FN : forall p, In p F -> p < n). { intros p Hp. unfold F, firsts in Hp. apply filter_In in Hp as [Hp _]. apply in_seq in Hp. fold n in Hp. lia. }
  assert (EQ : map (fun p => nth p (l ++ [x]) 0) F = E).
  { apply map_ext_in. intros p Hp. apply app_nth1. apply FN. auto. }
  assert (Ln : length (l ++ [x]) = n + 1) by (rewrite app_length; reflexivity).
  assert (HN : forall p y, nth_error (l ++ [x]) p = Some y -> (p < n /\ nth_error l p = Some y) \/ (p = n /\ y = x)).
  { intros p y Hp. destruct (Nat.lt_ge_cases p n); [left; rewrite nth_error_app1 in Hp by auto; auto|right]. rewrite nth_error_app2 in Hp by auto. fold n in Hp.
    destruct (p - n) as [|k] eqn:Ek; cbn in Hp; [split; [lia|congruence]|destruct k; discriminate]. }
  destruct (_ || _) eqn:C.
  - (* a new value *)
    assert (LT : forall y, In y l -> y < x).
    { intros y Hy. assert (y <= x) by (apply LE; [auto|left; auto]). destruct (Nat.eq_dec y x) as [->|]; [exfalso|lia].
      apply orb_true_iff in C as [C|C]; [apply Nat.eqb_eq in C; unfold n in C; destruct l; [destruct Hy|discriminate]|].
      apply negb_true_iff, Nat.eqb_neq in C. apply C.
      (* the last entry is at least x *)
      destruct (In_nth_error _ _ Hy) as (p & Hp). assert (p < n) by (eapply nth_error_lt; eauto).
      assert (x <= nth (n - 1) l 0).
      { destruct (Nat.eq_dec p (n - 1)) as [->|]; [rewrite (nth_error_nth_lt _ _ _ _ Hp); auto|].
        assert (G : forall (l : list nat) a b x y, StronglySorted le l -> a < b -> nth_error l a = Some x -> nth_error l b = Some y -> x <= y).
        { clear. induction l as [|z l IH]; intros [|a] [|b] x y SS L H1 H2; try lia; try discriminate; cbn in *; inversion SS as [|? ? SS' FF]; subst.
          - inversion H1; subst. rewrite Forall_forall in FF. apply FF. eapply nth_error_In; eauto.
          - eapply (IH a b); eauto. lia. }
        eapply (G l p (n - 1) x); eauto; [lia|]. apply nth_error_nth'. fold n. lia. }
      assert (nth (n - 1) l 0 <= x) by (apply LE; [apply nth_In; fold n; lia|left; auto]). lia. }
    rewrite map_app, EQ. cbn [map]. rewrite app_nth2 by (fold n; lia). fold n. rewrite Nat.sub_diag. cbn [nth]. split; [|split].
    + apply StronglySorted_snoc; auto. apply Forall_forall. intros y Hy. apply LT, I2. auto.
    + intros e. rewrite !in_app_iff, I2. reflexivity.
    + split; [rewrite !app_length, I3; reflexivity|]. rewrite Ln. intros i e He.
      destruct (Nat.lt_ge_cases i (length E)) as [Hi|Hi].
      * rewrite nth_error_app1 in He by auto. destruct (I4 i e He) as (a & A1 & A2 & A3). exists a. rewrite nth_error_app1 by lia. split; [auto|].
        assert (NX : nth (S i) (F ++ [n]) (n + 1) = nth (S i) F n).
        { destruct (Nat.lt_ge_cases (S i) (length F)); [rewrite app_nth1 by auto; apply nth_indep; auto|]. rewrite app_nth2 by lia. replace (S i - length F) with 0 by lia. cbn. rewrite nth_overflow by lia. reflexivity. }
        rewrite NX. split; [lia|]. intros p y Hp. destruct (HN p y Hp) as [[Hp1 Hp2]|[-> ->]]; [apply A3; auto|].
        split; intros X; [|lia]. subst e. exfalso. apply nth_error_In in He. apply I2, LT in He. lia.
      * rewrite nth_error_app2 in He by auto. destruct (i - length E) as [|k] eqn:Ek; [|destruct k; discriminate]. cbn in He. inversion He; subst e.
        exists n. rewrite nth_error_app2 by lia. replace (i - length F) with 0 by lia. split; [reflexivity|]. rewrite nth_overflow by (rewrite app_length; cbn; lia). split; [lia|].
        intros p y Hp. destruct (HN p y Hp) as [[Hp1 Hp2]|[-> ->]]; [|lia]. split; intros X; [|lia]. apply nth_error_In, LT in Hp2. lia.
  - (* the same value as before *)
    apply orb_false_iff in C as [C1 C2]. apply Nat.eqb_neq in C1. apply negb_false_iff, Nat.eqb_eq in C2.
    assert (NL : nth_error l (n - 1) = Some x) by (rewrite <- C2; apply nth_error_nth'; fold n; lia).
    rewrite app_nil_r, EQ. split; [auto|]. split.
    + intros e. rewrite in_app_iff, I2. split; [auto|]. intros [X|[<-|[]]]; auto. eapply nth_error_In; eauto.
    + split; [auto|]. rewrite Ln. intros i e He. destruct (I4 i e He) as (a & A1 & A2 & A3). exists a. split; [auto|].
      destruct (Nat.lt_ge_cases (S i) (length F)) as [Hi|Hi].
      * assert (NX : nth (S i) F (n + 1) = nth (S i) F n) by (apply nth_indep; auto). rewrite NX. split; [lia|].
        assert (nth (S i) F n < n) by (apply FN, nth_In; auto).
        intros p y Hp. destruct (HN p y Hp) as [[Hp1 Hp2]|[-> ->]]; [apply A3; auto|]. rewrite (A3 _ _ NL). lia.
      * rewrite !nth_overflow in * by lia. split; [lia|]. intros p y Hp. destruct (HN p y Hp) as [[Hp1 Hp2]|[-> ->]].
        -- rewrite (A3 _ _ Hp2). lia.
        -- rewrite (A3 _ _ NL). lia.
Qed.

Section Owned.
Variables (nRecvs : nat) (deIds : list nat).
Definition keysOf (k j : nat) : list (nat * nat) := map (pair k) (filter (fun re => k =? nth re deIds 0) (seq 0 j)).
Definition owned (k : nat) : list (nat * nat) := flat_map (fun e => keysOf e nRecvs) (seq 0 k).

Lemma In_keysOf k j e re : In (e, re) (keysOf k j) <-> e = k /\ re < j /\ nth re deIds 0 = k.
Proof.
  unfold keysOf. rewrite in_map_iff. split.
  - intros (x & E & H). inversion E; subst. apply filter_In in H as [H1 H2]. apply in_seq in H1. apply Nat.eqb_eq in H2. repeat split; auto; lia.
  - intros (-> & H1 & H2). exists re. split; [auto|]. apply filter_In. split; [apply in_seq; lia|]. apply Nat.eqb_eq. auto.
Qed.

Lemma In_owned k e re : In (e, re) (owned k) <-> e < k /\ re < nRecvs /\ nth re deIds 0 = e.
Proof.
  unfold owned. rewrite in_flat_map. split.
  - intros (x & H1 & H2). apply in_seq in H1. apply In_keysOf in H2 as (-> & H2 & H3). repeat split; auto; lia.
  - intros (H1 & H2 & H3). exists e. split; [apply in_seq; lia|]. apply In_keysOf. auto.
Qed.

Lemma sorted_keysOf k : StronglySorted lt (map snd (keysOf k nRecvs)).
Proof.
  unfold keysOf. rewrite map_map. cbn. rewrite map_id. generalize (fun re => k =? nth re deIds 0). intros f.
  generalize 0. clear. induction nRecvs as [|n IH]; intros a; cbn [seq filter]; [constructor|].
  destruct (f a); [|apply IH]. constructor; [apply IH|]. apply Forall_forall. intros x Hx. apply filter_In in Hx as [Hx _]. apply in_seq in Hx. lia.
Qed.

Lemma sorted_owned k : StronglySorted le (map fst (owned k)).
Proof.
  unfold owned. induction k as [|k IH]; [constructor|]. rewrite seq_snoc, flat_map_app, map_app. cbn. rewrite app_nil_r.
  assert (KF : forall x, In x (map fst (keysOf k nRecvs)) -> x = k) by (intros x Hx; apply in_map_iff in Hx as ([a b] & <- & H); apply In_keysOf in H; cbn; tauto).
  assert (OF : forall x, In x (map fst (flat_map (fun e => keysOf e nRecvs) (seq 0 k))) -> x < k) by (intros x Hx; apply in_map_iff in Hx as ([a b] & <- & H); apply In_owned in H; cbn; tauto).
  induction (map fst (flat_map (fun e => keysOf e nRecvs) (seq 0 k))) as [|x l IH2]; cbn.
  - clear - KF. induction (map fst (keysOf k nRecvs)) as [|x l IH]; constructor; [apply IH; intros; apply KF; right; auto|].
    apply Forall_forall. intros y Hy. rewrite (KF x), (KF y) by (cbn; auto). lia.
  - inversion IH as [|? ? S F]; subst. constructor; [apply IH2; auto; intros; apply OF; right; auto|]. apply Forall_app. split; [auto|]. apply Forall_forall. intros y Hy. rewrite (KF y) by auto.
    assert (x < k) by (apply OF; left; auto). lia.
Qed.

Lemma NoDup_owned k : NoDup (map snd (owned k)).
Proof.
  unfold owned. induction k as [|k IH]; [constructor|]. rewrite seq_snoc, flat_map_app, map_app. cbn. rewrite app_nil_r.
  assert (D : forall x, In x (map snd (flat_map (fun e => keysOf e nRecvs) (seq 0 k))) -> ~ In x (map snd (keysOf k nRecvs))).
  { intros x H1 H2. apply in_map_iff in H1 as ([a b] & <- & H1). apply in_map_iff in H2 as ([a' b'] & E & H2). cbn in E. subst b'. apply In_owned in H1. apply In_keysOf in H2. lia. }
  assert (K : NoDup (map snd (keysOf k nRecvs))).
  { assert (S := sorted_keysOf k). clear - S. induction S as [|x l S IH2 F]; constructor; auto. intros X. rewrite Forall_forall in F. apply F in X. lia. }
  induction (map snd (flat_map (fun e => keysOf e nRecvs) (seq 0 k))) as [|x l IH2]; cbn; [auto|]. inversion IH; subst. constructor.
  - rewrite in_app_iff. intros [X|X]; [auto|]. apply (D x); [left; auto|auto].
  - apply IH2; auto. intros; apply D; right; auto.
Qed.

End Owned.

Section Init.
Variable T : Type.
Variable zero : T.
Variables (nQt nCr : nat).
Variables (nTgs : nat) (nIn nSe : list nat) (nRecvs : nat) (deIds : list nat) (geo : nat -> nat -> option (list T)) (bSize : nat) (time : Q).
Local Notation recv := (recv T).
Local Notation keysOf := (keysOf deIds).
Local Notation owned := (owned nRecvs deIds).

Definition nEnsIn := list_sum (firstn nTgs nIn).
Definition nEns := nEnsIn + list_sum (firstn nTgs nSe).

(** entity en is the entity number enTg of the inner (send) entities of group tg *)
Definition located (tg en enTg : nat) : Prop :=
  tg < nTgs /\ ((enTg < nth tg nIn 0 /\ en = list_sum (firstn tg nIn) + enTg) \/
                (enTg < nth tg nSe 0 /\ en = nEnsIn + list_sum (firstn tg nSe) + enTg)).

(** freshly initialised receiver *)
Definition fresh (r : recv) : Prop :=
  rNBuff r = 0 /\ rBuffer r = repeat zero (nQt * nCr * bSize) /\ rBuffTime r = repeat 0%Q bSize /\ rTime r = time /\ rFile r = [] /\
  geo (rEn r) (rId r) = Some (rEva r) /\ located (rTg r) (rEn r) (rEnTg r).

Definition inv (k j : nat) (s : list recv * list nat) : Prop :=
  map (fun r => (rEn r, rId r)) (fst s) = owned k ++ keysOf k j /\ snd s = firsts (map rEn (fst s)) /\ Forall fresh (fst s).

Lemma inv_next k s : inv k nRecvs s -> inv (S k) 0 s.
Proof.
  intros (I1 & I2 & I3). split; [|auto]. rewrite I1. unfold owned. rewrite seq_snoc, flat_map_app. cbn. rewrite !app_nil_r. reflexivity.
Qed.

Hypothesis LD : nRecvs <= length deIds.
(** the checks of the reference coordinates hold *)
Hypothesis GEO : forall re, re < nRecvs -> nth re deIds 0 < nEns -> geo (nth re deIds 0) re <> None.

Lemma addEn_ok tg k enTg s : k < nEns -> located tg k enTg -> inv k 0 s -> exists s',
  addEn T zero nQt nCr nRecvs deIds geo bSize time tg k enTg s = Ok s' /\ inv (S k) 0 s'.
Proof.
  intros Hk LOC I. unfold addEn.
  match goal with |- exists s', for_ 0 nRecvs ?bd s = _ /\ _ => destruct (for_ok (fun j s => inv k j s) 0 nRecvs bd s) as (s' & E & I') end; [lia|exact I| |].
  2:{ exists s'. split; [exact E|]. apply inv_next. auto. }
  intros re [rs sp] Hre (I1 & I2 & I3). cbn [fst snd] in *. rewrite (rd_ok _ re 0) by lia. cbn [bind].
  assert (KS : keysOf k (S re) = keysOf k re ++ (if k =? nth re deIds 0 then [(k, re)] else [])).
  { unfold keysOf. rewrite seq_snoc, filter_app, map_app. f_equal. cbn. destruct (k =? nth re deIds 0); reflexivity. }
  destruct (Nat.eqb_spec k (nth re deIds 0)) as [E|E].
  2:{ eexists. split; [reflexivity|]. unfold inv. rewrite KS, app_nil_r. auto. }
  assert (G := GEO re ltac:(lia) ltac:(lia)). rewrite <- E in G.
  assert (LEk : forall r, In r rs -> rEn r <= k).
  { intros r Hr. assert (X : In (rEn r, rId r) (owned k ++ keysOf k re)) by (rewrite <- I1; apply (in_map (fun r => (rEn r, rId r))); auto).
    apply in_app_iff in X as [X|X]; [apply In_owned in X; lia|apply In_keysOf in X; lia]. }
  assert (SP : (if 0 <? length rs then l <- rd rs (length rs - 1);; Ok (if rEn l <? k then sp ++ [length rs] else sp) else Ok (sp ++ [0])) =
    Ok (firsts (map rEn rs ++ [k]))).
  { rewrite firsts_snoc, map_length, <- I2. destruct (Nat.ltb_spec 0 (length rs)) as [P|P].
    - destruct (nth_error rs (length rs - 1)) as [l|] eqn:El; [|apply nth_error_None in El; lia]. rewrite (rd_some _ _ _ El). cbn [bind].
      assert (nth (length rs - 1) (map rEn rs) 0 = rEn l) by (apply nth_error_nth_lt; rewrite nth_error_map, El; reflexivity). rewrite H.
      assert (rEn l <= k) by (apply LEk; eapply nth_error_In; eauto).
      destruct (Nat.eqb_spec (length rs) 0); [lia|]. cbn [orb].
      destruct (Nat.ltb_spec (rEn l) k), (Nat.eqb_spec (rEn l) k); cbn [negb]; try lia; [reflexivity|rewrite app_nil_r; reflexivity].
    - assert (length rs = 0) by lia. rewrite H. reflexivity. }
  rewrite SP. cbn [bind]. destruct (geo k re) as [eva|] eqn:Eg; [|congruence]. cbn [bind]. eexists. split; [reflexivity|].
  unfold inv. cbn [fst snd]. rewrite !map_app. cbn [map rEn rId]. split; [rewrite I1, KS, app_assoc; reflexivity|]. split; [reflexivity|].
  apply Forall_app. split; [auto|]. constructor; [|constructor]. unfold fresh. cbn. repeat split; auto; apply LOC.
Qed.

Lemma list_sum_firstn_S l k : k < length l -> list_sum (firstn (S k) l) = list_sum (firstn k l) + nth k l 0.
Proof.
  intros H. rewrite (firstn_S_snoc l k (nth k l 0)) by (apply nth_error_nth'; auto). rewrite list_sum_app. cbn. lia.
Qed.

Lemma list_sum_firstn_le l a b : a <= b -> list_sum (firstn a l) <= list_sum (firstn b l).
Proof.
  intros H. replace b with (a + (b - a)) by lia. generalize (b - a). clear. intros d. revert l. induction a as [|a IH]; intros [|x l]; cbn; try lia. specialize (IH l). unfold list_sum in IH. lia.
Qed.

Hypothesis LI : nTgs <= length nIn.
Hypothesis LS : nTgs <= length nSe.

Lemma init_inv fr : exists st, init T zero nQt nCr nTgs nIn nSe nRecvs deIds geo fr bSize time = Ok st /\
  inv nEns 0 (recvL st, spEnToRecv st) /\ buffSize st = bSize /\ freq st = fr.
Proof.
  unfold init. cbv zeta.
  match goal with |- context [for_ 0 nTgs ?bd (0, ([], []))] =>
    destruct (for_ok (fun tg '(off, s) => off = list_sum (firstn tg nIn) /\ inv off 0 s) 0 nTgs bd (0, ([], []))) as ((off & s) & E & I) end; [lia| | |].
  - split; [reflexivity|]. split; [reflexivity|]. split; [reflexivity|constructor].
  - intros tg (off, s) Htg (-> & I). rewrite (rd_ok _ tg 0) by lia. cbn [bind].
    match goal with |- context [for_ 0 (nth tg nIn 0) ?bd s] =>
      destruct (for_ok (fun en s => inv (list_sum (firstn tg nIn) + en) 0 s) 0 (nth tg nIn 0) bd s) as (s' & E & I') end; [lia|rewrite Nat.add_0_r; auto| |].
    + intros en s' Hen I'. rewrite (Nat.add_comm en). rewrite Nat.add_succ_r. apply addEn_ok; auto.
      * unfold nEns, nEnsIn. assert (X := list_sum_firstn_le nIn (S tg) nTgs ltac:(lia)). rewrite list_sum_firstn_S in X by lia. lia.
      * split; [lia|]. left. lia.
    + rewrite E. cbn [bind]. eexists. split; [reflexivity|]. rewrite list_sum_firstn_S by lia. auto.
  - rewrite E. cbn [bind]. clear E. destruct I as (-> & I).
    match goal with |- context [for_ 0 nTgs ?bd (?o, s)] =>
      destruct (for_ok (fun tg '(off, s) => off = nEnsIn + list_sum (firstn tg nSe) /\ inv off 0 s) 0 nTgs bd (o, s)) as ((off & s') & E & I') end; [lia| | |].
    + cbn. rewrite Nat.add_0_r. split; [reflexivity|exact I].
    + intros tg (off, s') Htg (-> & I'). rewrite (rd_ok _ tg 0) by lia. cbn [bind].
      match goal with |- context [for_ 0 (nth tg nSe 0) ?bd s'] =>
        destruct (for_ok (fun en s => inv (nEnsIn + list_sum (firstn tg nSe) + en) 0 s) 0 (nth tg nSe 0) bd s') as (s'' & E & I'') end; [lia|rewrite Nat.add_0_r; auto| |].
      * intros en s'' Hen I''. rewrite (Nat.add_comm en). rewrite Nat.add_succ_r. apply addEn_ok; auto.
        -- unfold nEns. assert (X := list_sum_firstn_le nSe (S tg) nTgs ltac:(lia)). rewrite list_sum_firstn_S in X by lia. lia.
        -- split; [lia|]. right. lia.
      * rewrite E. cbn [bind]. eexists. split; [reflexivity|]. rewrite list_sum_firstn_S by lia. rewrite Nat.add_assoc. auto.
    + rewrite E. cbn [bind]. destruct s' as (rs & sp). eexists. split; [reflexivity|]. cbn [recvL spEnToRecv buffSize freq]. destruct I' as (-> & I'). auto.
Qed.

End Init.
