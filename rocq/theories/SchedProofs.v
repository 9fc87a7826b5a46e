(** Invariant of the scheduling model (SchedModel.v). *)
From Verif Require Import Util SchedModel.

(** Phases of the inner and of the send part of a time group within a time step. *)
Inductive iph := IU | I0 | I1 | I2 | I3 | I4 | I5 | I6 | I7.
Inductive sph := SU | S0 | S1 | S2 | S3 | S4 | S5 | S6 | S7 | S8 | S9.

Definition ic0 p := match p with IU => 9 | I0 => 0 | I1 => 1 | I2 => 2 | I3 | I4 => 4 | _ => 5 end.
Definition ic2 p := match p with IU => 9 | I0 | I1 | I2 => 0 | I3 => 1 | I4 => 2 | _ => 3 end.
Definition ic4 p := match p with IU => 9 | I5 => 1 | I6 => 2 | I7 => 4 | _ => 0 end.
Definition itp p := match p with I2 | I3 | I4 | I5 | I6 => 1 | _ => 0 end.
Definition isr p := match p with I4 | I5 | I6 => 1 | _ => 0 end.
Definition idu p := match p with I6 => 1 | _ => 0 end.

Definition sc1 q := match q with SU => 9 | S0 => 0 | S1 => 1 | S2 => 2 | S3 => 3 | S4 | S5 => 4 | _ => 5 end.
Definition sc3 q := match q with SU => 9 | S0 | S1 | S2 | S3 => 0 | S4 => 1 | S5 => 2 | _ => 3 end.
Definition sc5 q := match q with SU => 9 | S6 => 1 | S7 => 2 | S8 => 3 | S9 => 4 | _ => 0 end.
Definition stp q := match q with S2 | S3 | S4 | S5 | S6 | S7 | S8 => 1 | _ => 0 end.
Definition ssr q := match q with S5 | S6 | S7 | S8 => 1 | _ => 0 end.
Definition sdu q := match q with S7 | S8 => 1 | _ => 0 end.

(** sends: (c6, nSe) given the phase; x: the current send is still in flight *)
Definition sendOk (q : sph) (n c6 nse : nat) : Prop :=
  match q with
  | SU => c6 = 9 /\ nse = 0
  | S0 | S9 => (c6 = 2 /\ nse = n) \/ (c6 = 1 /\ S nse = n)
  | S1 | S2 => c6 = 0 /\ nse = n
  | _ => (c6 = 1 /\ nse = n) \/ (c6 = 2 /\ nse = S n)
  end.

Definition recvOk (q : sph) (N n c7 nre : nat) : Prop :=
  match q with
  | SU => c7 = 9 /\ nre = 0
  | S6 | S7 => c7 = 0 /\ nre = S n
  | S8 => (S n < N /\ ((c7 = 1 /\ nre = S n) \/ (c7 = 2 /\ nre = S (S n)))) \/ (S n = N /\ c7 = 3 /\ nre = S n)
  | S9 => c7 = 3 /\ nre = n
  | _ => (c7 = 1 /\ nre = n) \/ (c7 = 2 /\ nre = S n)
  end.

Definition LocI (t : tgs) (p : iph) : Prop :=
  cf t 0 = ic0 p /\ cf t 2 = ic2 p /\ cf t 4 = ic4 p /\
  tpI t = nTs t + itp p /\ srI t = nTs t + isr p /\ duI t = nTs t + idu p.

Definition LocS (N : nat) (t : tgs) (q : sph) : Prop :=
  cf t 1 = sc1 q /\ cf t 3 = sc3 q /\ cf t 5 = sc5 q /\
  tpS t = nTs t + stp q /\ srS t = nTs t + ssr q /\ duS t = nTs t + sdu q /\
  sendOk q (nTs t) (cf t 6) (nSe t) /\ recvOk q N (nTs t) (cf t 7) (nRe t).

Definition couple (N n : nat) (p : iph) (q : sph) : Prop :=
  match p, q with
  | IU, SU => n = 0
  | I7, S9 => n = N
  | (IU | I7), _ => False
  | _, (SU | S9) => False
  | (I0 | I1 | I2 | I3 | I4), _ => n < N
  | (I5 | I6), (S0 | S1 | S2 | S3) => False
  | _, _ => n < N
  end /\
  match q, p with
  | (S6 | S7 | S8), (I0 | I1 | I2) => False
  | _, _ => True
  end.

Definition Loc (N : nat) (t : tgs) : Prop := exists p q, LocI t p /\ LocS N t q /\ couple N (nTs t) p q.

(** relation of a group [t] and the next larger group [T] *)
Definition started (t : tgs) : Prop := cf t 4 = 1 \/ cf t 4 = 2 \/ cf t 5 = 1 \/ cf t 5 = 2 \/ cf t 5 = 3.

Definition Pair (t T : tgs) : Prop :=
  2 * nTs T <= nTs t + 1 /\ nTs t <= 2 * nTs T + 2 /\
  (nTs t + 1 = 2 * nTs T -> duI t = nTs t + 1 /\ duS t = nTs t + 1) /\
  (nTs t = 2 * nTs T + 2 -> duI T = nTs T + 1 /\ duS T = nTs T + 1) /\
  (started t -> nTs t + 1 <= 2 * tpI T /\ nTs t + 1 <= 2 * tpS T) /\
  (started T -> 2 * (nTs T + 1) <= tpI t /\ 2 * (nTs T + 1) <= tpS t).

Definition nReq (c : cfg) (g : nat) : nat := nReqFull c g + maxDiv c g.

Definition LocInv (c : cfg) (s : rst) : Prop := forall g, g < nT c -> Loc (nReq c g) (tg s g).
Definition PairInv (c : cfg) (s : rst) : Prop := forall g, g + 1 < nT c -> Pair (tg s g) (tg s (g + 1)).

(** number of times the scheduling thread has seen a region finished *)
Definition cnt (t : tgs) (e : nat) : nat :=
  match e with 0 => tpI t | 1 => tpS t | 2 => srI t | 3 => srS t | 4 => duI t | _ => duS t end.

Definition PkgOk (t : tgs) (e : nat) (st : status) (x : nat) : Prop :=
  if cf t e =? 1 then match st with
                      | RDY | IPR => x = cnt t e
                      | FIN => x = S (cnt t e)
                      | WAI => False
                      end
  else x = cnt t e /\ (st = FIN \/ st = WAI).

Definition StatInv (c : cfg) (s : rst) : Prop :=
  forall g e w, g < nT c -> e < 6 -> w < nW c -> PkgOk (tg s g) e (stat s g e w) (exe s g e w).

Definition CurInv (c : cfg) (s : rst) : Prop :=
  (forall w g e, cur s w = Got g e -> stat s g e w = RDY /\ w < nW c /\ g < nT c /\ e < 6) /\
  (forall w g e, cur s w = Busy g e -> stat s g e w = IPR /\ w < nW c /\ g < nT c /\ e < 6) /\
  (forall g e w, stat s g e w = IPR -> cur s w = Busy g e).

(** contents of the buffers after [x] local updates *)
Definition BufOk (g x : nat) (b : bufs) : Prop :=
  match x with
  | 0 => True
  | S n => d0 b = Some (iv g n) /\
           d1 b = Some (2 * (n / 2) * 2 ^ g, (n + 1) * 2 ^ g) /\
           d2 b = Some (n * 2 ^ g, n * 2 ^ g + 2 ^ (g - 1))
  end.

Definition BufInv (c : cfg) (s : rst) : Prop :=
  forall g e w, g < nT c -> e < 2 -> w < nW c -> BufOk g (exe s g e w) (buf s g e w).

(** contents of the send buffers after [x] local updates *)
Definition SbfOk (g h x : nat) (v : tag * tag) : Prop :=
  match x with
  | 0 => True
  | S n => if g =? h then v = (Some (iv g n), None)
           else if g <? h then (1 <= n -> v = (Some ((2 * ((x / 2) - 1)) * 2 ^ g, (2 * (x / 2)) * 2 ^ g), None))
           else v = (Some (n * 2 ^ g, n * 2 ^ g + 2 ^ (g - 1)), Some (n * 2 ^ g + 2 ^ (g - 1), (n + 1) * 2 ^ g))
  end.

Definition SbfInv (c : cfg) (s : rst) : Prop :=
  forall g h w, g < nT c -> w < nW c -> SbfOk g h (exe s g 1 w) (sbf s g h w).

Definition Inv (c : cfg) (s : rst) : Prop :=
  LocInv c s /\ PairInv c s /\ StatInv c s /\ CurInv c s /\ BufInv c s /\ SbfInv c s.

(* ------------------------------------------------------------------ *)

Lemma fset_eq {A} (f : nat -> A) i v : fset f i v i = v.
Proof. unfold fset. now rewrite Nat.eqb_refl. Qed.
Lemma fset_ne {A} (f : nat -> A) i j v : j <> i -> fset f i v j = f j.
Proof. unfold fset. intros H. destruct (Nat.eqb_spec j i); congruence. Qed.

Lemma cfe_iff t i v : cfe t i v = true <-> cf t i = v.
Proof. unfold cfe. apply Nat.eqb_eq. Qed.

Lemma status_eqb_iff a b : status_eqb a b = true <-> a = b.
Proof. destruct a, b; cbn; split; congruence. Qed.

Lemma maxDiv_half c g : g + 1 < nT c -> maxDiv c g = 2 * maxDiv c (g + 1).
Proof.
  intros H. unfold maxDiv. replace (nT c - 1 - g) with (S (nT c - 1 - (g + 1))) by lia. reflexivity.
Qed.

Lemma nReq_half c g : g + 1 < nT c -> nReq c g = 2 * nReq c (g + 1).
Proof. intros H. unfold nReq, nReqFull. rewrite (maxDiv_half c g H). lia. Qed.

Lemma maxDiv_pos c g : 0 < maxDiv c g.
Proof. unfold maxDiv. apply Nat.neq_0_lt_0, Nat.pow_nonzero. lia. Qed.

Lemma nReq_pos c g : 0 < nReq c g.
Proof. unfold nReq. pose proof (maxDiv_pos c g). lia. Qed.

(** facts of a group's state used in the argument about pairs *)
Lemma Loc_facts N t : Loc N t ->
  nTs t <= N /\ nTs t <= tpI t <= nTs t + 1 /\ nTs t <= tpS t <= nTs t + 1 /\
  nTs t <= duI t <= tpI t /\ nTs t <= duS t <= tpS t /\
  (started t -> tpI t = nTs t + 1 /\ tpS t = nTs t + 1 /\ nTs t < N) /\
  (tpI t = nTs t + 1 -> nTs t < N) /\ (tpS t = nTs t + 1 -> nTs t < N) /\
  (duI t = nTs t + 1 -> started t) /\ (duS t = nTs t + 1 -> started t) /\
  (cf t 4 = 1 -> duI t = nTs t) /\ (cf t 5 = 1 -> duS t = nTs t) /\
  (cf t 4 = 0 -> duI t = nTs t) /\ (cf t 5 = 0 -> duS t = nTs t).
Proof.
  intros (p & q & (A1 & A2 & A3 & A4 & A5 & A6) & (B1 & B2 & B3 & B4 & B5 & B6 & _) & C & D).
  unfold started. rewrite A3, A4, A6, B3, B4, B6. clear - C D.
  destruct p, q; cbn in *; try contradiction; lia.
Qed.

Lemma pair_small t t' T :
  Pair t T -> nTs t' = nTs t -> tpI t <= tpI t' -> tpS t <= tpS t' ->
  duI t <= duI t' <= nTs t + 1 -> duS t <= duS t' <= nTs t + 1 ->
  (started t' -> started t \/ (nTs t + 1 <= 2 * tpI T /\ nTs t + 1 <= 2 * tpS T)) ->
  Pair t' T.
Proof.
  intros (P1 & P2 & P3 & P4 & P5 & P6) En H1 H2 H3 H4 H5.
  unfold Pair. rewrite En. repeat apply conj; try lia; auto.
  intros K. destruct (H5 K); auto.
Qed.

Lemma pair_large t T T' :
  Pair t T -> nTs T' = nTs T -> tpI T <= tpI T' -> tpS T <= tpS T' ->
  duI T <= duI T' <= nTs T + 1 -> duS T <= duS T' <= nTs T + 1 ->
  (started T' -> started T \/ (2 * (nTs T + 1) <= tpI t /\ 2 * (nTs T + 1) <= tpS t)) ->
  Pair t T'.
Proof.
  intros (P1 & P2 & P3 & P4 & P5 & P6) En H1 H2 H3 H4 H5.
  unfold Pair. rewrite En. repeat apply conj; try lia; auto.
  intros K. destruct (H5 K); auto.
Qed.

(** a step completes: the group as the smaller one *)
Lemma pair_small_step N N' t t' T :
  Pair t T -> Loc N t -> Loc N' T -> cf t 4 = 2 -> duI t = nTs t + 1 -> duS t = nTs t + 1 ->
  (nTs t mod 2 = 0 \/ (tpI t = duI T * 2 /\ tpS t = duS T * 2)) ->
  nTs t' = S (nTs t) -> tpI t' = tpI t -> tpS t' = tpS t -> duI t' = duI t -> duS t' = duS t -> ~ started t' ->
  Pair t' T.
Proof.
  intros P L1 L2 HA HB HC HD E1 E2 E3 E4 E5 NS.
  pose proof (Loc_facts _ _ L1) as F1. pose proof (Loc_facts _ _ L2) as F2.
  destruct P as (P1 & P2 & P3 & P4 & P5 & P6).
  assert (ST : started t) by (unfold started; auto).
  destruct (P5 ST) as [Q1 Q2].
  destruct F1 as (_ & _ & _ & _ & _ & F1 & _). destruct (F1 ST) as (R1 & R2 & _).
  destruct F2 as (_ & G1 & G2 & G3 & G4 & _).
  assert (nTs t <= 2 * nTs T + 1) by lia.
  assert (nTs t = 2 * nTs T + 1 -> duI T = nTs T + 1 /\ duS T = nTs T + 1).
  { intros E. destruct HD as [HD|HD]; [|lia].
    rewrite E in HD. replace (2 * nTs T + 1) with (1 + nTs T * 2) in HD by lia.
    rewrite Nat.mod_add in HD by lia. cbn in HD. lia. }
  unfold Pair. rewrite E1, E2, E3, E4, E5. repeat apply conj; try lia; auto; try (intros K; exfalso; auto; fail).
Qed.

(** a step completes: the group as the larger one *)
Lemma pair_large_step N N' t T T' :
  Pair t T -> Loc N t -> Loc N' T -> cf T 4 = 2 ->
  duI t = tpI T * 2 -> duS t = tpS T * 2 ->
  nTs T' = S (nTs T) -> tpI T' = tpI T -> tpS T' = tpS T -> duI T' = duI T -> duS T' = duS T -> ~ started T' ->
  Pair t T'.
Proof.
  intros P L1 L2 HA HB HC E1 E2 E3 E4 E5 NS.
  pose proof (Loc_facts _ _ L1) as F1. pose proof (Loc_facts _ _ L2) as F2.
  destruct P as (P1 & P2 & P3 & P4 & P5 & P6).
  assert (ST : started T) by (unfold started; auto).
  destruct F1 as (_ & F1 & F1' & F3 & F4 & _).
  destruct F2 as (_ & G1 & G2 & G3 & G4 & G5 & _). destruct (G5 ST) as (R1 & R2 & _).
  unfold Pair. rewrite E1, E2, E3, E4, E5. repeat apply conj; try lia; auto; try (intros K; exfalso; auto; fail).
Qed.

(** replacing one group *)
Lemma upd_inv c s g t' :
  g < nT c -> LocInv c s -> PairInv c s ->
  Loc (nReq c g) t' ->
  (g + 1 < nT c -> Pair (tg s g) (tg s (g + 1)) -> Pair t' (tg s (g + 1))) ->
  (0 < g -> Pair (tg s (g - 1)) (tg s g) -> Pair (tg s (g - 1)) t') ->
  (forall g0, g0 < nT c -> Loc (nReq c g0) (fset (tg s) g t' g0)) /\
  (forall g0, g0 + 1 < nT c -> Pair (fset (tg s) g t' g0) (fset (tg s) g t' (g0 + 1))).
Proof.
  intros Hg LI PI L P1 P2. split; intros g0 H.
  - destruct (Nat.eq_dec g0 g) as [->|]; [rewrite fset_eq; auto | rewrite fset_ne by auto; auto].
  - destruct (Nat.eq_dec g0 g) as [->|].
    + rewrite fset_eq, fset_ne by lia. auto.
    + destruct (Nat.eq_dec (g0 + 1) g) as [E|].
      * rewrite fset_ne by lia. rewrite E, fset_eq. specialize (PI g0 H). rewrite E in PI.
        replace g0 with (g - 1) in * by lia. apply P2; auto. lia.
      * rewrite !fset_ne by lia. auto.
Qed.

Lemma avail_right c s g : predAvailable c s g = true -> g + 1 < nT c ->
  tpI (tg s g) <= tpI (tg s (g + 1)) * 2 /\ tpS (tg s g) <= tpS (tg s (g + 1)) * 2.
Proof.
  unfold predAvailable. intros H Hg.
  destruct (Nat.eqb_spec g (nT c - 1)); [lia|].
  apply andb_prop in H as [_ H]. apply andb_prop in H as [H1 H2]. lia.
Qed.

Lemma avail_left c s g : predAvailable c s g = true -> 0 < g ->
  tpI (tg s (g - 1)) = tpI (tg s g) * 2 /\ tpS (tg s (g - 1)) = tpS (tg s g) * 2.
Proof.
  unfold predAvailable. intros H Hg.
  destruct (Nat.eqb_spec g 0); [lia|].
  apply andb_prop in H as [H _]. apply andb_prop in H as [H1 H2]. lia.
Qed.

Lemma consumed_left c s g : predConsumed c s g = true -> 0 < g ->
  duI (tg s (g - 1)) = tpI (tg s g) * 2 /\ duS (tg s (g - 1)) = tpS (tg s g) * 2.
Proof.
  unfold predConsumed. intros H Hg.
  destruct (Nat.eqb_spec g 0); [lia|].
  apply andb_prop in H as [H _]. apply andb_prop in H as [H1 H2]. lia.
Qed.

Lemma consumed_right c s g : predConsumed c s g = true -> g + 1 < nT c ->
  nTs (tg s g) mod 2 = 0 \/
  (tpI (tg s g) = duI (tg s (g + 1)) * 2 /\ tpS (tg s g) = duS (tg s (g + 1)) * 2).
Proof.
  unfold predConsumed. intros H Hg.
  destruct (Nat.eqb_spec g (nT c - 1)); [lia|].
  apply andb_prop in H as [_ H]. apply orb_prop in H as [H|H]; [left|right].
  - now apply Nat.eqb_eq.
  - apply andb_prop in H as [H1 H2]. lia.
Qed.

Lemma allFin_spec c s g e : allFin c s g e = true -> forall w, w < nW c -> stat s g e w = FIN.
Proof.
  unfold allFin. rewrite forallb_forall. intros H w Hw.
  apply status_eqb_iff, H, in_seq. lia.
Qed.

Lemma allFin_complete c s g e : (forall w, w < nW c -> stat s g e w = FIN) -> allFin c s g e = true.
Proof.
  intros H. unfold allFin. apply forallb_forall. intros w Hw. apply in_seq in Hw.
  apply status_eqb_iff, H. lia.
Qed.

Lemma rdyAllowed_complete c s g e :
  (forall w, w < nW c -> stat s g e w = FIN \/ stat s g e w = WAI) -> rdyAllowed c s g e = true.
Proof.
  intros H. unfold rdyAllowed. apply forallb_forall. intros w Hw. apply in_seq in Hw.
  apply orb_true_iff. rewrite !status_eqb_iff. apply H. lia.
Qed.

(** Invariant under a change of one group that does not touch the status of packages. *)
Lemma with_tg_inv c s g t' :
  Inv c s -> g < nT c ->
  Loc (nReq c g) t' ->
  (g + 1 < nT c -> Pair (tg s g) (tg s (g + 1)) -> Pair t' (tg s (g + 1))) ->
  (0 < g -> Pair (tg s (g - 1)) (tg s g) -> Pair (tg s (g - 1)) t') ->
  (forall e w, e < 6 -> w < nW c -> PkgOk (tg s g) e (stat s g e w) (exe s g e w) ->
               PkgOk t' e (stat s g e w) (exe s g e w)) ->
  Inv c (with_tg s g t').
Proof.
  intros (I1 & I2 & I3 & I4 & I5 & I6) Hg L P1 P2 K.
  destruct (upd_inv c s g t' Hg I1 I2 L P1 P2) as [A B].
  split; [exact A|]. split; [exact B|]. split; [|split; [exact I4|split; [exact I5|exact I6]]].
  intros g0 e w H1 H2 H3. cbn.
  destruct (Nat.eq_dec g0 g) as [->|]; [rewrite fset_eq; auto | rewrite fset_ne by auto; auto].
Qed.

(** Invariant under setStatusAll( RDY ). *)
Lemma set_rdy_inv c s g e t' :
  Inv c s -> g < nT c -> e < 6 ->
  Loc (nReq c g) t' ->
  (g + 1 < nT c -> Pair (tg s g) (tg s (g + 1)) -> Pair t' (tg s (g + 1))) ->
  (0 < g -> Pair (tg s (g - 1)) (tg s g) -> Pair (tg s (g - 1)) t') ->
  cf (tg s g) e <> 1 -> cf t' e = 1 -> (forall e', e' < 6 -> cnt t' e' = cnt (tg s g) e') ->
  (forall e', e' < 6 -> e' <> e -> (cf t' e' =? 1) = (cf (tg s g) e' =? 1)) ->
  exists s', set_rdy c s g e t' = Next s' None /\ Inv c s' /\ tg s' = fset (tg s) g t' /\ pc s' = pc s /\
             (forall g' e' w, stat s' g' e' w = IPR -> stat s g' e' w = IPR) /\
             fin s' = fin s /\ nFin s' = nFin s /\ sbf s' = sbf s.
Proof.
  intros (I1 & I2 & I3 & I4 & I5 & I6) Hg He L P1 P2 K1 K2 K3 K4.
  assert (ST : forall w, w < nW c -> (stat s g e w = FIN \/ stat s g e w = WAI) /\ exe s g e w = cnt (tg s g) e).
  { intros w Hw. specialize (I3 g e w Hg He Hw). unfold PkgOk in I3.
    destruct (Nat.eqb_spec (cf (tg s g) e) 1); [contradiction|]. tauto. }
  unfold set_rdy. rewrite rdyAllowed_complete by (intros w Hw; apply ST; auto).
  eexists. split; [reflexivity|]. cbn [tg pc stat fin nFin sbf].
  destruct (upd_inv c s g t' Hg I1 I2 L P1 P2) as [A B].
  split; [|split; [reflexivity|split; [reflexivity|split; [|auto]]]].
  2: { intros g' e' w. destruct ((g' =? g) && (e' =? e) && (w <? nW c)); [discriminate|auto]. }
  split; [exact A|]. split; [exact B|]. split; [|split; [|split; [exact I5|exact I6]]].
  - intros g0 e0 w H1 H2 H3. cbn [tg stat exe].
    destruct (Nat.eq_dec g0 g) as [->|].
    + rewrite fset_eq, Nat.eqb_refl. destruct (Nat.eqb_spec e0 e) as [->|].
      * replace (w <? nW c) with true by lia. cbn [andb]. unfold PkgOk. rewrite K2. cbn [Nat.eqb].
        rewrite (proj2 (ST w H3)). symmetry. auto.
      * cbn [andb]. specialize (I3 g e0 w Hg H2 H3). unfold PkgOk in *. rewrite K4, K3 by auto. exact I3.
    + rewrite fset_ne by auto. replace (g0 =? g) with false by lia. cbn [andb]. auto.
  - destruct I4 as (J1 & J2 & J3). repeat apply conj; cbn [stat cur].
    + intros w g0 e0 H. destruct (J1 w g0 e0 H) as (H1 & H2 & H3 & H4). split; auto.
      destruct ((g0 =? g) && (e0 =? e) && (w <? nW c)); auto.
    + intros w g0 e0 H. destruct (J2 w g0 e0 H) as (H1 & H2 & H3 & H4). split; auto.
      destruct (Nat.eqb_spec g0 g) as [->|]; cbn; auto.
      destruct (Nat.eqb_spec e0 e) as [->|]; cbn; auto.
      destruct (ST w H2) as [[E|E] _]; congruence.
    + intros g0 e0 w. destruct ((g0 =? g) && (e0 =? e) && (w <? nW c)); [discriminate|]. apply J3.
Qed.

(* ------------------------------------------------------------------ *)
(** effect of the blocks on the state of a single group *)

Ltac open_loc :=
  match goal with
  | [ H : Loc _ ?t |- _ ] =>
      let p := fresh "p" in let q := fresh "q" in
      destruct H as (p & q & (?A1 & ?A2 & ?A3 & ?A4 & ?A5 & ?A6) &
                     (?B1 & ?B2 & ?B3 & ?B4 & ?B5 & ?B6 & ?B7 & ?B8) & ?C1 & ?C2);
      destruct p; try (cbn in *; lia); destruct q; try (cbn in *; lia)
  end.

Ltac close_loc p q := exists p, q; unfold LocI, LocS, couple; cbn in *; repeat apply conj; lia.

Lemma L_init N t : 0 < N -> Loc N t -> cf t 0 = cfMax ->
  Loc N (mkTgs (nTs t) (tpI t) (tpS t) (srI t) (srS t) (duI t) (duS t) (nSe t) (nRe t)
               (fset (fset (fun _ => 0) 6 2) 7 1)).
Proof. unfold cfMax. intros HN L H. open_loc; close_loc I0 S0. Qed.

Lemma L_loc0 N t : Loc N t -> cf t 0 = 1 -> Loc N (inc_tpI (set_cf t 0 2)).
Proof. intros L H. open_loc; match type of B1 with _ = sc1 ?q => close_loc I2 q end. Qed.

Lemma L_loc1 N t : Loc N t -> cf t 1 = 1 -> Loc N (inc_tpS (set_cf t 1 2)).
Proof. intros L H. open_loc; match type of A1 with _ = ic0 ?p => close_loc p S2 end. Qed.

Lemma L_src2 N t : Loc N t -> cf t 2 = 1 -> Loc N (inc_srI (set_cf t 2 2)).
Proof. intros L H. open_loc; match type of B1 with _ = sc1 ?q => close_loc I4 q end. Qed.

Lemma L_src3 N t : Loc N t -> cf t 3 = 1 -> Loc N (inc_srS (set_cf t 3 2)).
Proof. intros L H. open_loc; match type of A1 with _ = ic0 ?p => close_loc p S5 end. Qed.

Lemma L_nei4 N t : Loc N t -> cf t 4 = 1 -> Loc N (inc_duI (set_cf t 4 2)).
Proof. intros L H. open_loc; match type of B1 with _ = sc1 ?q => close_loc I6 q end. Qed.

Lemma L_nei5 N t : Loc N t -> cf t 5 = 1 -> Loc N (inc_duS (set_cf t 5 2)).
Proof. intros L H. open_loc; match type of A1 with _ = ic0 ?p => close_loc p S7 end. Qed.

Ltac same_loc := match goal with [ A : _ = ic0 ?p, B : _ = sc1 ?q |- _ ] => close_loc p q end.

Lemma L_send6 N t : Loc N t -> cf t 6 = 1 -> Loc N (inc_nSe (set_cf t 6 2)).
Proof. intros L H. open_loc; same_loc. Qed.

Lemma L_recv7 N t : Loc N t -> cf t 7 = 1 -> Loc N (inc_nRe (set_cf t 7 2)).
Proof. intros L H. open_loc; same_loc. Qed.

Lemma L_slocal1 N t : Loc N t -> cf t 1 = 0 -> cf t 6 = 2 -> Loc N (set_cf (set_cf t 1 1) 6 0).
Proof. intros L H H2. open_loc; match type of A1 with _ = ic0 ?p => close_loc p S1 end. Qed.

Lemma L_slocal0 N t : Loc N t -> cf t 0 = 0 -> Loc N (set_cf t 0 1).
Proof. intros L H. open_loc; match type of B1 with _ = sc1 ?q => close_loc I1 q end. Qed.

Lemma L_ssend N t : Loc N t -> cf t 1 = 2 -> cf t 6 = 0 -> Loc N (set_cf (set_cf t 1 3) 6 1).
Proof. intros L H H2. open_loc; match type of A1 with _ = ic0 ?p => close_loc p S3 end. Qed.

Lemma L_ssrc3 N t : Loc N t -> cf t 1 = 3 -> cf t 3 = 0 -> Loc N (set_cf (set_cf t 1 4) 3 1).
Proof. intros L H H2. open_loc; match type of A1 with _ = ic0 ?p => close_loc p S4 end. Qed.

Lemma L_ssrc2 N t : Loc N t -> cf t 0 = 2 -> cf t 2 = 0 -> Loc N (set_cf (set_cf t 0 4) 2 1).
Proof. intros L H H2. open_loc; match type of B1 with _ = sc1 ?q => close_loc I3 q end. Qed.

Lemma L_sneigh5 N t : Loc N t -> cf t 7 = 2 -> 4 <= cf t 0 -> 4 <= cf t 1 -> cf t 3 = 2 -> cf t 5 = 0 ->
  Loc N (set_cf (set_cf (set_cf (set_cf t 1 5) 3 3) 5 1) 7 0).
Proof. intros L H H2 H3 H4 H5. open_loc; match type of A1 with _ = ic0 ?p => close_loc p S6 end. Qed.

Lemma L_sneigh4 N t : Loc N t -> 4 <= cf t 0 -> 4 <= cf t 1 -> cf t 2 = 2 -> cf t 4 = 0 ->
  Loc N (set_cf (set_cf (set_cf t 0 5) 2 3) 4 1).
Proof. intros L H H2 H3 H4. open_loc; match type of B1 with _ = sc1 ?q => close_loc I5 q end. Qed.

Lemma L_srecv N t : Loc N t -> cf t 5 = 2 -> cf t 7 = 0 -> nTs t <> N - 1 -> Loc N (set_cf (set_cf t 7 1) 5 3).
Proof. intros L H H2 H3. open_loc; match type of A1 with _ = ic0 ?p => close_loc p S8 end. Qed.

Lemma L_srecv_last N t : Loc N t -> cf t 5 = 2 -> cf t 7 = 0 -> nTs t = N - 1 -> Loc N (set_cf (set_cf t 7 3) 5 3).
Proof. intros L H H2 H3. open_loc; match type of A1 with _ = ic0 ?p => close_loc p S8 end. Qed.

Lemma L_step N t : Loc N t -> cf t 4 = 2 -> cf t 5 = 3 -> S (nTs t) <> N ->
  Loc N (set_cf (set_cf (set_cf (set_cf (set_cf (set_cf (inc_nTs t) 0 0) 1 0) 2 0) 3 0) 4 0) 5 0).
Proof. intros L H H2 H3. open_loc; close_loc I0 S0. Qed.

Lemma L_step_last N t : Loc N t -> cf t 4 = 2 -> cf t 5 = 3 -> S (nTs t) = N ->
  Loc N (set_cf (set_cf (inc_nTs t) 4 4) 5 4).
Proof. intros L H H2 H3. open_loc; close_loc I7 S9. Qed.
