(** Sparse matrix formats: property C36. *)
From Coq Require Import Sorting.Sorted.
From Verif Require Import Util MatSparse Props_Mat.

(** ** Specification *)
Section Spec.
Context {T : Type}.

(** values stored for position (r,c), in storage order *)
Definition valuesAt (l : list (entry T)) (r c : nat) : list T := map nz (filter (fun e => (ro e =? r) && (co e =? c)) l).

(** entries represented by a compressed format with [n] rows (columns): the entries of row o are at positions ptr[o] .. ptr[o+1]-1 *)
Definition entriesOf (d : T) (mk : nat -> nat -> T -> entry T) (n : nat) (s : comp T) : list (entry T) :=
  flat_map (fun o => map (fun p => mk o (nth p (cIdx s) 0) (nth p (cVal s) d)) (seq (nth o (cPtr s) 0) (nth (o + 1) (cPtr s) 0 - nth o (cPtr s) 0))) (seq 0 n).
Definition csrEntries (d : T) := entriesOf d (fun r c v => (r, c, v)).
Definition cscEntries (d : T) := entriesOf d (fun c r v => (r, c, v)).

(** pointers start at zero, do not decrease and end with the number of values and indices *)
Definition wfComp (n : nat) (s : comp T) : Prop :=
  length (cPtr s) = n + 1 /\ nth 0 (cPtr s) 0 = 0 /\ (forall o, o < n -> nth o (cPtr s) 0 <= nth (o + 1) (cPtr s) 0) /\
  nth n (cPtr s) 0 = length (cVal s) /\ length (cIdx s) = length (cVal s).

(** order of the entries *)
Definition rowMajor (l : list (entry T)) : Prop := StronglySorted (fun e f => ro e < ro f \/ (ro e = ro f /\ co e <= co f)) l.
Definition colMajor (l : list (entry T)) : Prop := StronglySorted (fun e f => co e < co f \/ (co e = co f /\ ro e <= ro f)) l.
End Spec.

(** ** Lemmas on lists *)

Lemma filter_flat_map {A B} (p : B -> bool) (f : A -> list B) l : filter p (flat_map f l) = flat_map (fun x => filter p (f x)) l.
Proof. induction l as [|x l IH]; cbn; [reflexivity|]. rewrite filter_app, IH. reflexivity. Qed.

Lemma flat_map_ext_in {A B} (f g : A -> list B) l : (forall x, In x l -> f x = g x) -> flat_map f l = flat_map g l.
Proof. induction l as [|x l IH]; intros H; cbn; [reflexivity|]. rewrite H by (left; auto). rewrite IH; auto. intros. apply H. right; auto. Qed.

Lemma flat_map_single {B} (L : list B) k n : flat_map (fun x => if x =? k then L else []) (seq 0 n) = if k <? n then L else [].
Proof.
  induction n as [|n IH]; [reflexivity|]. rewrite seq_S, flat_map_app, IH. cbn [flat_map]. rewrite app_nil_r. cbn [Nat.add].
  destruct (Nat.ltb_spec k n), (Nat.ltb_spec k (S n)), (Nat.eqb_spec n k); subst; try lia; rewrite ?app_nil_r; reflexivity.
Qed.

Lemma flat_map_seq_S {B} (f : nat -> list B) n : flat_map f (seq 0 (S n)) = flat_map f (seq 0 n) ++ f n.
Proof. rewrite seq_S, flat_map_app. cbn. rewrite app_nil_r. reflexivity. Qed.

Lemma bucket_length {A} (k : A -> nat) (l : list A) n : length (flat_map (fun i => filter (fun e => i =? k e) l) (seq 0 n)) = length (filter (fun e => k e <? n) l).
Proof.
  induction n as [|n IH].
  - cbn. induction l; cbn; auto.
  - rewrite flat_map_seq_S, app_length, IH. clear IH. induction l as [|e l IH]; [reflexivity|]. cbn [filter].
    destruct (Nat.ltb_spec (k e) n), (Nat.eqb_spec n (k e)), (Nat.ltb_spec (k e) (S n)); try lia; cbn [length]; lia.
Qed.

Lemma sorted_app {A} (R : A -> A -> Prop) l1 l2 : StronglySorted R l1 -> StronglySorted R l2 -> (forall x y, In x l1 -> In y l2 -> R x y) -> StronglySorted R (l1 ++ l2).
Proof.
  induction 1 as [|a l S IH F]; intros S2 H; cbn [app]; auto. constructor; [apply IH; auto; intros; apply H; auto; right; auto|].
  apply Forall_app. split; auto. apply Forall_forall. intros y Hy. apply H; auto. left; auto.
Qed.

Lemma sorted_flat_map {A} (R : A -> A -> Prop) (f : nat -> list A) n : (forall i, i < n -> StronglySorted R (f i)) ->
  (forall i j x y, i < j -> j < n -> In x (f i) -> In y (f j) -> R x y) -> StronglySorted R (flat_map f (seq 0 n)).
Proof.
  induction n as [|n IH]; intros S C; [constructor|]. rewrite flat_map_seq_S. apply sorted_app; auto.
  - apply IH; [intros; apply S; lia|]. intros i j x y Hij Hj. apply C; auto; lia.
  - intros x y Hx Hy. apply in_flat_map in Hx. destruct Hx as (i & Hi & Hx). apply in_seq in Hi. eapply (C i n); eauto; lia.
Qed.

Lemma sorted_all {A} (R : A -> A -> Prop) l : (forall x y, In x l -> In y l -> R x y) -> StronglySorted R l.
Proof.
  induction l as [|a l IH]; intros H; constructor; [apply IH; intros; apply H; right; auto|]. apply Forall_forall. intros y Hy. apply H; [left|right]; auto.
Qed.

Lemma filter_and {A} (p q : A -> bool) l : filter p (filter q l) = filter (fun x => q x && p x) l.
Proof. induction l as [|x l IH]; cbn; [reflexivity|]. destruct (q x); cbn; [destruct (p x); rewrite IH; reflexivity|apply IH]. Qed.

Lemma length_flat_map_ext {A B} (f g : A -> list B) l : (forall x, length (f x) = length (g x)) -> length (flat_map f l) = length (flat_map g l).
Proof. intros H. induction l as [|x l IH]; cbn; [reflexivity|]. rewrite !app_length, H, IH. reflexivity. Qed.

Lemma for_app {A} n (f : nat -> list A) body (o : list A) : (forall i o, i < n -> body i o = Ok (o ++ f i)) -> for_ 0 n body o = Ok (o ++ flat_map f (seq 0 n)).
Proof.
  intros H. destruct (for_ok (fun i s => s = o ++ flat_map f (seq 0 i)) 0 n body o) as (s & E & ->); [lia|cbn; rewrite app_nil_r; auto| |exact E].
  intros k s Hk ->. rewrite H by lia. eexists. split; [reflexivity|]. rewrite flat_map_seq_S, app_assoc. reflexivity.
Qed.

Lemma filter_nth {A} (p : A -> bool) (l : list A) (f : A -> A) : (forall e, p e = true -> f e = e) ->
  flat_map (fun i => match nth_error l i with Some e => if p e then [f e] else [] | None => [] end) (seq 0 (length l)) = filter p l.
Proof.
  intros H. induction l as [|e l IH] using rev_ind; [reflexivity|]. rewrite app_length, Nat.add_1_r, flat_map_seq_S, filter_app. f_equal.
  - rewrite <- IH. apply flat_map_ext_in. intros i Hi. apply in_seq in Hi. rewrite nth_error_app1 by lia. reflexivity.
  - rewrite nth_error_app2, Nat.sub_diag by lia. cbn. destruct (p e) eqn:E; [rewrite H by auto|]; reflexivity.
Qed.

Lemma skipn_cons_eq {A} n (l : list A) x r : skipn n l = x :: r -> skipn (S n) l = r.
Proof. revert l. induction n as [|n IH]; intros [|y l] H; cbn in *; try discriminate; [inversion H; auto|]. apply IH. auto. Qed.

Section Proofs.
Context {T : Type}.
Variable d : T.

(** ** Coordinate format *)

Section Dense.
Variable big : T -> bool.

Definition denseEntries (nR nC : nat) (a : list T) : list (entry T) :=
  flat_map (fun r => flat_map (fun c => let v := nth (r * nC + c) a d in if big v then [(r, c, v)] else []) (seq 0 nC)) (seq 0 nR).

Lemma denseToCrd_ok nR nC a : length a = nR * nC -> denseToCrd big nR nC a = Ok (denseEntries nR nC a).
Proof.
  intros L. unfold denseToCrd. rewrite (for_app nR (fun r => flat_map (fun c => let v := nth (r * nC + c) a d in if big v then [(r, c, v)] else []) (seq 0 nC))); [reflexivity|].
  intros r o Hr. apply for_app. intros c o' Hc. rewrite (rd_ok _ _ d) by nia. cbn [bind]. cbv zeta. destruct (big _); [reflexivity|]. rewrite app_nil_r. reflexivity.
Qed.

Lemma at_pair (l : list (entry T)) r c : valuesAt l r c = map nz (filter (fun e => (ro e =? r) && (co e =? c)) l).
Proof. reflexivity. Qed.

Lemma denseEntries_at nR nC a r c : valuesAt (denseEntries nR nC a) r c =
  if (r <? nR) && (c <? nC) then let v := nth (r * nC + c) a d in if big v then [v] else [] else [].
Proof.
  unfold valuesAt, denseEntries. rewrite filter_flat_map.
  rewrite (flat_map_ext_in _ (fun x => if x =? r then (if c <? nC then (let v := nth (r * nC + c) a d in if big v then [(r, c, v)] else []) else []) else [])).
  - rewrite flat_map_single. destruct (r <? nR), (c <? nC); cbn [andb]; try reflexivity. cbv zeta. destruct (big _); reflexivity.
  - intros x _. rewrite filter_flat_map. rewrite (flat_map_ext_in _ (fun y => if y =? c then (if x =? r then (let v := nth (r * nC + c) a d in if big v then [(r, c, v)] else []) else []) else [])).
    + rewrite flat_map_single. destruct (x =? r), (c <? nC); reflexivity.
    + intros y _. cbv zeta. destruct (Nat.eqb_spec x r) as [->|Nx], (Nat.eqb_spec y c) as [->|Ny]; destruct (big (nth _ a d)); cbn [filter ro co fst snd]; try reflexivity;
        rewrite ?Nat.eqb_refl; cbn [andb]; try reflexivity;
        try (apply Nat.eqb_neq in Nx; rewrite Nx); try (apply Nat.eqb_neq in Ny; rewrite Ny); cbn [andb]; rewrite ?andb_false_r; try reflexivity.
Qed.

Lemma denseEntries_sorted nR nC a : rowMajor (denseEntries nR nC a).
Proof.
  unfold rowMajor, denseEntries. apply sorted_flat_map.
  - intros r _. apply sorted_flat_map.
    + intros c _. cbv zeta. destruct (big _); repeat constructor.
    + intros i j x y Hij _ Hx Hy. cbv zeta in Hx, Hy. destruct (big _) in Hx; [|destruct Hx]. destruct (big _) in Hy; [|destruct Hy].
      destruct Hx as [<-|[]], Hy as [<-|[]]. cbn. lia.
  - intros i j x y Hij _ Hx Hy. apply in_flat_map in Hx, Hy. destruct Hx as (cx & _ & Hx), Hy as (cy & _ & Hy). cbv zeta in Hx, Hy.
    destruct (big _) in Hx; [|destruct Hx]. destruct (big _) in Hy; [|destruct Hy]. destruct Hx as [<-|[]], Hy as [<-|[]]. cbn. lia.
Qed.

(** C36: dense to coordinate format: exactly the entries above the tolerance, in row-major order *)
Theorem C36_dense_to_crd nR nC a : length a = nR * nC ->
  exists l, denseToCrd big nR nC a = Ok l /\ rowMajor l /\
    (forall r c, r < nR -> c < nC -> valuesAt l r c = if big (nth (r * nC + c) a d) then [nth (r * nC + c) a d] else []) /\
    (forall r c, ~ (r < nR /\ c < nC) -> valuesAt l r c = []).
Proof.
  intros L. exists (denseEntries nR nC a). split; [apply denseToCrd_ok; auto|]. split; [apply denseEntries_sorted|]. split; intros r c.
  - intros Hr Hc. rewrite denseEntries_at. apply Nat.ltb_lt in Hr, Hc. rewrite Hr, Hc. reflexivity.
  - intros H. rewrite denseEntries_at. destruct (Nat.ltb_spec r nR), (Nat.ltb_spec c nC); auto. exfalso; auto.
Qed.

End Dense.

Lemma fold_max (m : list (entry T)) : forall s, let '(a, b) := fold_left (fun s e => (Nat.max (fst s) (ro e), Nat.max (snd s) (co e))) m s in
  fst s <= a /\ snd s <= b /\ forall e, In e m -> ro e <= a /\ co e <= b.
Proof.
  induction m as [|e m IH]; intros s; cbn [fold_left].
  - destruct s. split; [auto|]. split; [auto|]. intros e [].
  - specialize (IH (Nat.max (fst s) (ro e), Nat.max (snd s) (co e))). destruct (fold_left _ m _) as [a b]. cbn [fst snd] in IH. destruct IH as (H1 & H2 & H3).
    split; [lia|]. split; [lia|]. intros f [<-|Hf]; [lia|]. auto.
Qed.

(** C36: transposition of the coordinate format *)
Theorem C36_transpose_crd (m : list (entry T)) : exists l, transposeCrd m = Ok l /\ rowMajor l /\ forall r c, valuesAt l r c = valuesAt m c r.
Proof.
  unfold transposeCrd. assert (FM := fold_max m (0, 0)). destruct (fold_left _ m (0, 0)) as [nRo nCo]. destruct FM as (_ & _ & FM).
  set (g := fun r c => map (fun e => (r, c, nz e)) (filter (fun e => (ro e =? c) && (co e =? r)) m)).
  exists (flat_map (fun r => flat_map (fun c => g r c) (seq 0 (nRo + 1))) (seq 0 (nCo + 1))). split; [|split].
  - rewrite (for_app (nCo + 1) (fun r => flat_map (fun c => g r c) (seq 0 (nRo + 1)))); [reflexivity|]. intros r o _. apply for_app. intros c o' _.
    rewrite (for_app (length m) (fun i => match nth_error m i with Some e => if (ro e =? c) && (co e =? r) then [(r, c, nz e)] else [] | None => [] end)).
    + f_equal. f_equal. unfold g. clear. induction m as [|e m IH] using rev_ind; [reflexivity|].
      rewrite app_length, Nat.add_1_r, flat_map_seq_S, filter_app, map_app. f_equal.
      * rewrite <- IH. apply flat_map_ext_in. intros i Hi. apply in_seq in Hi. rewrite nth_error_app1 by lia. reflexivity.
      * rewrite nth_error_app2, Nat.sub_diag by lia. cbn. destruct (_ && _); reflexivity.
    + intros i o2 Hi. unfold rd. destruct (nth_error m i) as [e|] eqn:E; [|apply nth_error_None in E; lia]. cbn [bind].
      destruct (_ && _); [reflexivity|]. rewrite app_nil_r. reflexivity.
  - apply sorted_flat_map.
    + intros r _. apply sorted_flat_map.
      * intros c _. apply sorted_all. intros x y Hx Hy. unfold g in *. apply in_map_iff in Hx, Hy. destruct Hx as (? & <- & _), Hy as (? & <- & _). cbn. lia.
      * intros i j x y Hij _ Hx Hy. unfold g in *. apply in_map_iff in Hx, Hy. destruct Hx as (? & <- & _), Hy as (? & <- & _). cbn. lia.
    + intros i j x y Hij _ Hx Hy. apply in_flat_map in Hx, Hy. destruct Hx as (? & _ & Hx), Hy as (? & _ & Hy). unfold g in *. apply in_map_iff in Hx, Hy.
      destruct Hx as (? & <- & _), Hy as (? & <- & _). cbn. lia.
  - intros r c. unfold valuesAt. rewrite filter_flat_map.
    assert (G : forall x y, filter (fun e => (ro e =? r) && (co e =? c)) (g x y) = if y =? c then (if x =? r then g r c else []) else []).
    { intros x y. unfold g. destruct (Nat.eqb_spec y c) as [->|Ny], (Nat.eqb_spec x r) as [->|Nx].
      - induction (filter _ m) as [|e l IH]; cbn [map filter]; [reflexivity|]. cbn [ro co fst snd]. rewrite !Nat.eqb_refl. cbn [andb]. rewrite IH. reflexivity.
      - induction (filter _ m) as [|e l IH]; cbn [map filter]; [reflexivity|]. cbn [ro co fst snd]. apply Nat.eqb_neq in Nx. rewrite Nx. cbn [andb]. apply IH.
      - induction (filter _ m) as [|e l IH]; cbn [map filter]; [reflexivity|]. cbn [ro co fst snd]. apply Nat.eqb_neq in Ny. rewrite Ny, andb_false_r. apply IH.
      - induction (filter _ m) as [|e l IH]; cbn [map filter]; [reflexivity|]. cbn [ro co fst snd]. apply Nat.eqb_neq in Ny. rewrite Ny, andb_false_r. apply IH. }
    rewrite (flat_map_ext_in _ (fun x => if x =? r then (if c <? nRo + 1 then g r c else []) else [])).
    2:{ intros x _. rewrite filter_flat_map, (flat_map_ext_in _ (fun y => if y =? c then (if x =? r then g r c else []) else [])) by (intros; apply G).
        rewrite flat_map_single. destruct (x =? r), (c <? nRo + 1); reflexivity. }
    rewrite flat_map_single.
    assert (Z : r < nCo + 1 /\ c < nRo + 1 \/ filter (fun e => (ro e =? c) && (co e =? r)) m = []).
    { destruct (Nat.lt_ge_cases r (nCo + 1)) as [H1|H1]; [destruct (Nat.lt_ge_cases c (nRo + 1)) as [H2|H2]; [auto|]|]; right;
        (destruct (filter _ m) as [|e l] eqn:E; [reflexivity|]); exfalso; assert (In e (filter (fun e => (ro e =? c) && (co e =? r)) m)) as Hin by (rewrite E; left; auto);
        apply filter_In in Hin; destruct Hin as [Hin HE]; apply FM in Hin; lia. }
    destruct Z as [[H1 H2]|Z].
    + apply Nat.ltb_lt in H1, H2. rewrite H1, H2. unfold g. rewrite map_map. reflexivity.
    + assert (G0 : g r c = []) by (unfold g; rewrite Z; reflexivity). rewrite Z, G0. destruct (r <? nCo + 1), (c <? nRo + 1); reflexivity.
Qed.

(** ** Compressed formats *)

Section Compressed.
Variable zero : T.

(** operations of the conversion: set the pointer, append an entry *)
Inductive op := Optr (o : nat) | Oent (e : entry T).
Definition state := (list T * list nat * list nat * nat)%type.
Definition runOp (idx : entry T -> nat) (p : op) (s : state) : res state :=
  let '(va, pt, id, el) := s in
  match p with
  | Optr o => pt <- wr pt o el;; Ok (va, pt, id, el)
  | Oent e => va <- wr va el (nz e);; id <- wr id el (idx e);; Ok (va, pt, id, el + 1)
  end.
Fixpoint runOps (idx : entry T -> nat) (l : list op) (s : state) : res state :=
  match l with [] => Ok s | p :: l => s <- runOp idx p s;; runOps idx l s end.

Lemma runOps_app idx l1 l2 s : runOps idx (l1 ++ l2) s = (s <- runOps idx l1 s;; runOps idx l2 s).
Proof. revert s. induction l1 as [|p l1 IH]; intros s; cbn; [reflexivity|]. destruct (runOp idx p s); cbn; auto. Qed.

Lemma for_ext_in {S} n (f g : nat -> S -> res S) s : (forall i s, i < n -> f i s = g i s) -> for_ 0 n f s = for_ 0 n g s.
Proof.
  intros H. unfold for_. rewrite Nat.sub_0_r. assert (G : forall k lo s, lo + k <= n -> for_n k lo f s = for_n k lo g s).
  { induction k as [|k IH]; intros lo s0 L; cbn; [reflexivity|]. rewrite H by lia. destruct (g lo s0); cbn; auto. apply IH. lia. }
  apply G. lia.
Qed.

Lemma for_snoc {S} n (f : nat -> S -> res S) s : for_ 0 (Datatypes.S n) f s = (s <- for_ 0 n f s;; f n s).
Proof.
  unfold for_. rewrite !Nat.sub_0_r. assert (G : forall k lo s, for_n (Datatypes.S k) lo f s = (s <- for_n k lo f s;; f (lo + k) s)).
  { induction k as [|k IH]; intros lo s0.
    - cbn. rewrite Nat.add_0_r. destruct (f lo s0); reflexivity.
    - change (for_n (Datatypes.S (Datatypes.S k)) lo f s0) with (s1 <- f lo s0;; for_n (Datatypes.S k) (Datatypes.S lo) f s1).
      change (for_n (Datatypes.S k) lo f s0) with (s1 <- f lo s0;; for_n k (Datatypes.S lo) f s1). destruct (f lo s0) as [s1|]; cbn [bind]; [|reflexivity].
      rewrite IH. replace (Datatypes.S lo + k) with (lo + Datatypes.S k) by lia. reflexivity. }
  apply G.
Qed.

Lemma for_ops idx n (ops : nat -> list op) body s : (forall i s, i < n -> body i s = runOps idx (ops i) s) -> for_ 0 n body s = runOps idx (flat_map ops (seq 0 n)) s.
Proof.
  intros H. rewrite (for_ext_in n body (fun i s => runOps idx (ops i) s)) by auto. clear H. induction n as [|n IH]; [reflexivity|].
  rewrite for_snoc, IH, flat_map_seq_S, runOps_app. reflexivity.
Qed.

Lemma for_entries idx (p : entry T -> bool) m s :
  for_ 0 (length m) (fun i s => let '(va, pt, id, el) := s in e <- rd m i;; if p e then va <- wr va el (nz e);; id <- wr id el (idx e);; Ok (va, pt, id, el + 1) else Ok s) s =
  runOps idx (map Oent (filter p m)) s.
Proof.
  rewrite (for_ops idx (length m) (fun i => match nth_error m i with Some e => if p e then [Oent e] else [] | None => [] end)).
  - f_equal. induction m as [|e m IH] using rev_ind; [reflexivity|]. rewrite app_length, Nat.add_1_r, flat_map_seq_S, filter_app, map_app. f_equal.
    + rewrite <- IH. apply flat_map_ext_in. intros i Hi. apply in_seq in Hi. rewrite nth_error_app1 by lia. reflexivity.
    + rewrite nth_error_app2, Nat.sub_diag by lia. cbn. destruct (p e); reflexivity.
  - intros i [[[va pt] id] el] Hi. unfold rd. destruct (nth_error m i) as [e|] eqn:E; [|apply nth_error_None in E; lia]. cbn [bind].
    destruct (p e); cbn [runOps runOp bind]; [|reflexivity]. destruct (wr va el (nz e)); cbn [bind]; [|reflexivity]. destruct (wr id el (idx e)); reflexivity.
Qed.

(** both conversions: outer dimension, inner dimension *)
Definition compress (nO nI nnz : nat) (key : nat -> nat -> entry T -> bool) (idx : entry T -> nat) (m : list (entry T)) (old : comp T) : res (comp T) :=
  '(va, pt, id, _) <- for_ 0 nO (fun o s => let '(va, pt, id, el) := s in
      pt <- wr pt o el;;
      for_ 0 nI (fun i s => for_ 0 (length m) (fun k s => let '(va, pt, id, el) := s in
        e <- rd m k;;
        if key o i e then va <- wr va el (nz e);; id <- wr id el (idx e);; Ok (va, pt, id, el + 1) else Ok s) s) (va, pt, id, el))
    (resize zero nnz (cVal old), resize 0 (nO + 1) (cPtr old), resize 0 nnz (cIdx old), 0);;
  pt <- wr pt nO nnz;; Ok {| cVal := va; cPtr := pt; cIdx := id |}.

Lemma crdToCsr_compress nR nC m old : crdToCsr zero nR nC m old = compress nR nC (getNnzCrd nR nC m) (fun r c e => (r =? ro e) && (c =? co e)) co m old.
Proof. reflexivity. Qed.
Lemma crdToCsc_compress nR nC m old : crdToCsc zero nR nC m old = compress nC nR (getNnzCrd nR nC m) (fun c r e => (r =? ro e) && (c =? co e)) ro m old.
Proof. reflexivity. Qed.

Lemma resize_length {A} (x : A) n l : length (resize x n l) = n.
Proof. unfold resize. rewrite app_length, firstn_length, repeat_length. lia. Qed.

Section Comp.
Variables (nO nI nnz : nat) (key : nat -> nat -> entry T -> bool) (idx : entry T -> nat) (m : list (entry T)) (old : comp T).

Definition row (o : nat) : list (entry T) := flat_map (fun i => filter (key o i) m) (seq 0 nI).
Definition rows (n : nat) : list (entry T) := flat_map row (seq 0 n).
Hypothesis NNZ : nnz = length (rows nO).

Lemma rows_S n : rows (S n) = rows n ++ row n.
Proof. apply flat_map_seq_S. Qed.

Lemma rows_le n n' : n <= n' -> length (rows n) <= length (rows n').
Proof. induction 1 as [|n' L IH]; [auto|]. rewrite rows_S, app_length. lia. Qed.

Lemma run_entries M : forall A rv pt B ri el, length A = el -> length B = el -> length M <= length rv -> length M <= length ri ->
  exists rv' ri', runOps idx (map Oent M) (A ++ rv, pt, B ++ ri, el) = Ok ((A ++ map nz M) ++ rv', pt, (B ++ map idx M) ++ ri', el + length M) /\
    length rv' = length rv - length M /\ length ri' = length ri - length M.
Proof.
  induction M as [|e M IH]; intros A rv pt B ri el LA LB Lv Li.
  - cbn. exists rv, ri. rewrite !app_nil_r, Nat.add_0_r, !Nat.sub_0_r. auto.
  - destruct rv as [|v rv]; [cbn in Lv; lia|]. destruct ri as [|w ri]; [cbn in Li; lia|]. cbn [length] in *. cbn [map runOps runOp].
    rewrite wr_ok by (rewrite app_length; cbn; lia). cbn [bind]. rewrite wr_ok by (rewrite app_length; cbn; lia). cbn [bind].
    assert (U1 : upd (A ++ v :: rv) el (nz e) = A ++ nz e :: rv) by (rewrite <- LA; apply upd_app_cons).
    assert (U2 : upd (B ++ w :: ri) el (idx e) = B ++ idx e :: ri) by (rewrite <- LB; apply upd_app_cons). rewrite U1, U2.
    replace (A ++ nz e :: rv) with ((A ++ [nz e]) ++ rv) by (rewrite <- app_assoc; reflexivity).
    replace (B ++ idx e :: ri) with ((B ++ [idx e]) ++ ri) by (rewrite <- app_assoc; reflexivity).
    destruct (IH (A ++ [nz e]) rv pt (B ++ [idx e]) ri (el + 1)) as (rv' & ri' & E & L1 & L2); try (rewrite app_length; cbn; lia); try lia.
    exists rv', ri'. rewrite E. split; [|lia]. rewrite <- !app_assoc. cbn [app]. f_equal. f_equal. lia.
Qed.

Definition ops (n : nat) : list op := flat_map (fun o => Optr o :: map Oent (row o)) (seq 0 n).

Lemma run_rows n va pt id : n <= nO -> length va = nnz -> length id = nnz -> length pt = nO + 1 ->
  exists rv ri pt', runOps idx (ops n) (va, pt, id, 0) = Ok (map nz (rows n) ++ rv, pt', map idx (rows n) ++ ri, length (rows n)) /\
    length rv = nnz - length (rows n) /\ length ri = nnz - length (rows n) /\ length pt' = nO + 1 /\ forall o, o < n -> nth o pt' 0 = length (rows o).
Proof.
  intros Hn Lv Li Lp. induction n as [|n IH].
  - exists va, id, pt. cbn. rewrite !Nat.sub_0_r. repeat split; auto. lia.
  - destruct IH as (rv & ri & pt1 & E & L1 & L2 & L3 & V); [lia|]. unfold ops in *. rewrite flat_map_seq_S, runOps_app, E. cbn [bind runOps runOp].
    rewrite wr_ok by lia. cbn [bind]. assert (B := rows_le (S n) nO ltac:(lia)). rewrite rows_S, app_length in B.
    destruct (run_entries (row n) (map nz (rows n)) rv (upd pt1 n (length (rows n))) (map idx (rows n)) ri (length (rows n))) as (rv' & ri' & E2 & L4 & L5);
      try (rewrite map_length; reflexivity); try lia.
    rewrite E2. exists rv', ri', (upd pt1 n (length (rows n))). rewrite rows_S, !map_app, app_length. split; [reflexivity|]. split; [lia|]. split; [lia|].
    split; [rewrite length_upd; auto|]. intros o Ho. destruct (Nat.eq_dec o n) as [->|Ne]; [rewrite nth_upd_eq by lia; reflexivity|]. rewrite nth_upd_ne by auto. apply V. lia.
Qed.

Lemma compress_ok : exists s, compress nO nI nnz key idx m old = Ok s /\ cVal s = map nz (rows nO) /\ cIdx s = map idx (rows nO) /\
  length (cPtr s) = nO + 1 /\ forall o, o <= nO -> nth o (cPtr s) 0 = length (rows o).
Proof.
  unfold compress.
  rewrite (for_ops idx nO (fun o => Optr o :: map Oent (row o))).
  - fold (ops nO). destruct (run_rows nO (resize zero nnz (cVal old)) (resize 0 (nO + 1) (cPtr old)) (resize 0 nnz (cIdx old))) as (rv & ri & pt & E & L1 & L2 & L3 & V);
      try apply resize_length; auto.
    rewrite E. cbn [bind]. rewrite wr_ok by lia. cbn [bind]. eexists. split; [reflexivity|]. cbn [cVal cIdx cPtr].
    assert (rv = []) as -> by (destruct rv; [auto|cbn in L1; lia]). assert (ri = []) as -> by (destruct ri; [auto|cbn in L2; lia]). rewrite !app_nil_r.
    split; [auto|]. split; [auto|]. split; [rewrite length_upd; auto|]. intros o Ho.
    destruct (Nat.eq_dec o nO) as [->|Ne]; [rewrite nth_upd_eq by lia; auto|]. rewrite nth_upd_ne by auto. apply V. lia.
  - intros o [[[va pt] id] el] _. cbn [runOps runOp]. destruct (wr pt o el) as [pt'|]; cbn [bind]; [|reflexivity].
    rewrite (for_ops idx nI (fun i => map Oent (filter (key o i) m))).
    + f_equal. unfold row. induction (seq 0 nI) as [|i l IH]; cbn; [reflexivity|]. rewrite map_app, IH. reflexivity.
    + intros i s _. apply for_entries.
Qed.

Lemma entries_rows mk s : (forall o e, In e (row o) -> mk o (idx e) (nz e) = e) ->
  cVal s = map nz (rows nO) -> cIdx s = map idx (rows nO) -> (forall o, o <= nO -> nth o (cPtr s) 0 = length (rows o)) ->
  entriesOf d mk nO s = rows nO.
Proof.
  intros MK V I P. unfold entriesOf. unfold rows at 1. apply flat_map_ext_in. intros o Ho. apply in_seq in Ho.
  rewrite !P by lia. rewrite Nat.add_1_r, rows_S, app_length. replace (length (rows o) + length (row o) - length (rows o)) with (length (row o)) by lia.
  assert (exists R, rows nO = (rows o ++ row o) ++ R) as [R HR].
  { rewrite <- rows_S. assert (L : S o <= nO) by lia. clear - L. induction L as [|n L [R IH]]; [exists []; rewrite app_nil_r; auto|].
    exists (R ++ row n). rewrite rows_S, IH at 1. rewrite app_assoc. reflexivity. }
  rewrite V, I, HR. clear - MK. set (l := length (rows o)). assert (MK' := MK o).
  assert (G : forall M X R, (forall e, In e M -> mk o (idx e) (nz e) = e) ->
    map (fun p => mk o (nth p (map idx ((X ++ M) ++ R)) 0) (nth p (map nz ((X ++ M) ++ R)) d)) (seq (length X) (length M)) = M).
  { induction M as [|e M IH]; intros X R0 HM; [reflexivity|]. cbn [length seq map]. f_equal.
    - rewrite <- app_assoc, !map_app. cbn [app map]. rewrite !app_nth2 by (rewrite map_length; auto). rewrite !map_length, !Nat.sub_diag. cbn [nth]. apply HM. left; auto.
    - rewrite <- (IH (X ++ [e]) R0) at 2 by (intros; apply HM; right; auto). rewrite app_length, Nat.add_1_r. rewrite <- !app_assoc. reflexivity. }
  apply G; auto.
Qed.

Lemma comp_wf s : cVal s = map nz (rows nO) -> cIdx s = map idx (rows nO) -> length (cPtr s) = nO + 1 -> (forall o, o <= nO -> nth o (cPtr s) 0 = length (rows o)) -> wfComp nO s.
Proof.
  intros V I L P. split; [auto|]. split; [rewrite P by lia; reflexivity|]. split; [intros o Ho; rewrite !P by lia; apply rows_le; lia|].
  rewrite V, I, !map_length. split; [apply P; auto|reflexivity].
Qed.

End Comp.

Lemma getNnz_len nR nC m : getNnzCrd nR nC m = length (filter (fun e : entry T => (ro e <? nR) && (co e <? nC)) m).
Proof.
  unfold getNnzCrd. assert (G : forall n, fold_left (fun n e => if (ro e <? nR) && (co e <? nC) then n + 1 else n) m n = n + length (filter (fun e : entry T => (ro e <? nR) && (co e <? nC)) m)).
  { induction m as [|e l IH]; intros n; cbn [fold_left filter]; [cbn; lia|]. rewrite IH. destruct (_ && _); cbn [length]; lia. }
  apply G.
Qed.

Lemma rows_length nO nI (kO kI : entry T -> nat) m :
  length (rows nI (fun o i e => (o =? kO e) && (i =? kI e)) m nO) = length (filter (fun e => (kO e <? nO) && (kI e <? nI)) m).
Proof.
  unfold rows. rewrite (length_flat_map_ext _ (fun o => filter (fun e => o =? kO e) (filter (fun e => kI e <? nI) m))).
  - rewrite (bucket_length kO), filter_and. f_equal. apply filter_ext. intros e. apply andb_comm.
  - intros o. unfold row. rewrite filter_and. rewrite (flat_map_ext_in _ (fun i => filter (fun e => i =? kI e) (filter (fun e => o =? kO e) m))) by (intros; rewrite filter_and; reflexivity).
    rewrite (bucket_length kI), filter_and. f_equal. apply filter_ext. intros e. apply andb_comm.
Qed.

Lemma rows_at nO nI (kO kI : entry T -> nat) m p q :
  filter (fun e => (kO e =? p) && (kI e =? q)) (rows nI (fun o i e => (o =? kO e) && (i =? kI e)) m nO) =
  if (p <? nO) && (q <? nI) then filter (fun e => (kO e =? p) && (kI e =? q)) m else [].
Proof.
  unfold rows. rewrite filter_flat_map.
  rewrite (flat_map_ext_in _ (fun o => if o =? p then (if q <? nI then filter (fun e => (kO e =? p) && (kI e =? q)) m else []) else [])).
  - rewrite flat_map_single. destruct (p <? nO), (q <? nI); reflexivity.
  - intros o _. unfold row. rewrite filter_flat_map.
    rewrite (flat_map_ext_in _ (fun i => if i =? q then (if o =? p then filter (fun e => (kO e =? p) && (kI e =? q)) m else []) else [])).
    + rewrite flat_map_single. destruct (o =? p), (q <? nI); reflexivity.
    + intros i _. rewrite filter_and. destruct (Nat.eqb_spec i q) as [->|Ni], (Nat.eqb_spec o p) as [->|No].
      * apply filter_ext. intros e. destruct (Nat.eqb_spec p (kO e)), (Nat.eqb_spec q (kI e)), (Nat.eqb_spec (kO e) p), (Nat.eqb_spec (kI e) q); try lia; reflexivity.
      * induction m as [|e l IH]; cbn [filter]; auto. destruct (Nat.eqb_spec o (kO e)), (Nat.eqb_spec (kO e) p); cbn [andb]; rewrite ?andb_false_r; auto; lia.
      * induction m as [|e l IH]; cbn [filter]; auto. destruct (Nat.eqb_spec i (kI e)), (Nat.eqb_spec (kI e) q); rewrite ?andb_false_r; auto; lia.
      * induction m as [|e l IH]; cbn [filter]; auto. destruct (Nat.eqb_spec i (kI e)), (Nat.eqb_spec (kI e) q); rewrite ?andb_false_r; auto; lia.
Qed.

Lemma rows_sorted nO nI (kO kI : entry T -> nat) m :
  StronglySorted (fun e f => kO e < kO f \/ (kO e = kO f /\ kI e <= kI f)) (rows nI (fun o i e => (o =? kO e) && (i =? kI e)) m nO).
Proof.
  assert (E : forall o i e, In e (filter (fun e => (o =? kO e) && (i =? kI e)) m) -> kO e = o /\ kI e = i).
  { intros o i e H. apply filter_In in H. destruct H as [_ H]. lia. }
  apply sorted_flat_map.
  - intros o _. apply sorted_flat_map.
    + intros i _. apply sorted_all. intros x y Hx Hy. apply E in Hx, Hy. lia.
    + intros i j x y Hij _ Hx Hy. apply E in Hx, Hy. lia.
  - intros i j x y Hij _ Hx Hy. apply in_flat_map in Hx, Hy. destruct Hx as (? & _ & Hx), Hy as (? & _ & Hy). apply E in Hx, Hy. lia.
Qed.

(** C36: coordinate format to compressed sparse rows: the entries of the sub-matrix, all of them, at their positions; whatever the
    output held before. *)
Theorem C36_crd_to_csr nR nC m old : exists s, crdToCsr zero nR nC m old = Ok s /\ wfComp nR s /\ rowMajor (csrEntries d nR s) /\
  forall r c, valuesAt (csrEntries d nR s) r c = if (r <? nR) && (c <? nC) then valuesAt m r c else [].
Proof.
  rewrite crdToCsr_compress.
  destruct (compress_ok nR nC (getNnzCrd nR nC m) (fun r c e => (r =? ro e) && (c =? co e)) co m old) as (s & E & V & I & L & P).
  { rewrite rows_length. apply getNnz_len. }
  exists s. split; [auto|]. split; [eapply comp_wf; eauto|].
  assert (EN : csrEntries d nR s = rows nC (fun r c e => (r =? ro e) && (c =? co e)) m nR).
  { eapply entries_rows; eauto. intros o e H. apply in_flat_map in H. destruct H as (i & _ & H). apply filter_In in H. destruct H as [_ H].
    destruct e as [[r c] v]. cbn in *. assert (o = r) by lia. subst. reflexivity. }
  rewrite EN. split; [apply rows_sorted|]. intros r c. unfold valuesAt. rewrite rows_at. destruct (_ && _); reflexivity.
Qed.

(** C36: coordinate format to compressed sparse columns *)
Theorem C36_crd_to_csc nR nC m old : exists s, crdToCsc zero nR nC m old = Ok s /\ wfComp nC s /\ colMajor (cscEntries d nC s) /\
  forall r c, valuesAt (cscEntries d nC s) r c = if (r <? nR) && (c <? nC) then valuesAt m r c else [].
Proof.
  rewrite crdToCsc_compress.
  assert (K : forall c r (e : entry T), (r =? ro e) && (c =? co e) = (c =? co e) && (r =? ro e)) by (intros; apply andb_comm).
  assert (RW : forall n, rows nR (fun c r e => (r =? ro e) && (c =? co e)) m n = rows nR (fun c r e => (c =? co e) && (r =? ro e)) m n).
  { intros n. apply flat_map_ext_in. intros o _. apply flat_map_ext_in. intros i _. apply filter_ext. intros e. apply andb_comm. }
  destruct (compress_ok nC nR (getNnzCrd nR nC m) (fun c r e => (r =? ro e) && (c =? co e)) ro m old) as (s & E & V & I & L & P).
  { rewrite RW, rows_length, getNnz_len. f_equal. apply filter_ext. intros e. apply andb_comm. }
  exists s. split; [auto|]. split; [eapply comp_wf; eauto|].
  assert (EN : cscEntries d nC s = rows nR (fun c r e => (r =? ro e) && (c =? co e)) m nC).
  { eapply entries_rows; eauto. intros o e H. apply in_flat_map in H. destruct H as (i & _ & H). apply filter_In in H. destruct H as [_ H].
    destruct e as [[r c] v]. cbn in *. assert (o = c) by lia. subst. reflexivity. }
  rewrite EN, RW. split; [apply rows_sorted|]. intros r c. unfold valuesAt.
  rewrite (filter_ext _ (fun e => (co e =? c) && (ro e =? r))) by (intros; apply andb_comm). rewrite rows_at.
  rewrite (andb_comm (c <? nC)). destruct (_ && _); [|reflexivity]. f_equal. apply filter_ext. intros; apply andb_comm.
Qed.

End Compressed.

(** C36: dense to compressed sparse rows *)
Theorem C36_dense_to_csr (big : T -> bool) (zero : T) nR nC a subR subC old : length a = nR * nC -> orElse subR nR <= nR -> orElse subC nC <= nC ->
  exists s, denseToCsr big zero nR nC a subR subC old = Ok s /\ wfComp (orElse subR nR) s /\ rowMajor (csrEntries d (orElse subR nR) s) /\
    forall r c, r < orElse subR nR -> c < orElse subC nC ->
      valuesAt (csrEntries d (orElse subR nR) s) r c = if big (nth (r * nC + c) a d) then [nth (r * nC + c) a d] else [].
Proof.
  intros L SR SC. unfold denseToCsr. destruct (C36_dense_to_crd big nR nC a L) as (l & E & _ & V & _). rewrite E. cbn [bind].
  destruct (C36_crd_to_csr zero (orElse subR nR) (orElse subC nC) l old) as (s & E2 & W & R & V2). exists s. split; [auto|]. split; [auto|]. split; [auto|].
  intros r c Hr Hc. rewrite V2. rewrite (proj2 (Nat.ltb_lt _ _) Hr), (proj2 (Nat.ltb_lt _ _) Hc). cbn [andb]. apply V; lia.
Qed.

(** ** Fill-in *)

Section Fill.
Variables (big small : T -> bool) (maxv : T).

Lemma get4_ok nR nC j i f : length f = nR * nC -> j < nC -> i + 3 < nR -> exists x, get4 nR j i f = Ok x.
Proof.
  intros L Hj Hi. unfold get4. assert (B : j * nR + (i + 3) < length f) by (rewrite L; nia).
  rewrite (rd_ok _ (j * nR + (i + 0)) 0) by lia. cbn [bind]. rewrite (rd_ok _ (j * nR + (i + 1)) 0) by lia. cbn [bind].
  rewrite (rd_ok _ (j * nR + (i + 2)) 0) by lia. cbn [bind]. rewrite (rd_ok _ (j * nR + (i + 3)) 0) by lia. cbn [bind]. eexists; reflexivity.
Qed.

Lemma set4_ok nR nC j i f : length f = nR * nC -> j < nC -> i + 3 < nR -> exists f', set4 nR j i f = Ok f' /\ length f' = nR * nC.
Proof.
  intros L Hj Hi. unfold set4. assert (B : j * nR + (i + 3) < length f) by (rewrite L; nia).
  rewrite wr_ok by lia. cbn [bind]. rewrite wr_ok by (rewrite length_upd; lia). cbn [bind]. rewrite wr_ok by (rewrite !length_upd; lia). cbn [bind].
  rewrite wr_ok by (rewrite !length_upd; lia). eexists. split; [reflexivity|]. rewrite !length_upd. auto.
Qed.

Lemma for_any {S} (P : S -> Prop) lo hi body s : P s -> (forall k s, lo <= k < hi -> P s -> exists s', body k s = Ok s' /\ P s') -> exists s', for_ lo hi body s = Ok s' /\ P s'.
Proof.
  intros H B. destruct (Nat.le_gt_cases lo hi) as [L|L]; [|rewrite for_empty by lia; eauto].
  apply (for_ok (fun _ s => P s)); auto.
Qed.

Lemma pad3_ok nR nC lo hi i s : length (fst s) = nR * nC -> hi <= nC -> i + 3 < nR -> exists s', pad3 nR lo hi i s = Ok s' /\ length (fst s') = nR * nC.
Proof.
  intros L Hh Hi. unfold pad3. apply (for_any (fun s => length (fst s) = nR * nC)); auto. intros j s1 Hj L1.
  destruct (get4_ok nR nC j i (fst s1) L1 ltac:(lia) Hi) as ([[[a b] c] e] & E). rewrite E. cbn [bind]. destruct (a + b + c + e =? 3); [|eauto].
  destruct (set4_ok nR nC j i (fst s1) L1 ltac:(lia) Hi) as (f' & E' & L'). rewrite E'. cbn [bind]. eexists. split; [reflexivity|]. auto.
Qed.

Lemma pass1_ok nR nC lo hi : hi <= nC -> forall fuel i f, nR - i <= fuel -> length f = nR * nC -> exists f', pass1 fuel nR lo hi i f = Ok f' /\ length f' = nR * nC.
Proof.
  intros Hh. induction fuel as [|fuel IH]; intros i f Hf L; cbn [pass1].
  - destruct (Nat.leb_spec nR i); [eauto|lia].
  - destruct (Nat.leb_spec nR i); [eauto|]. destruct (Nat.leb_spec nR (i + 3)) as [H3|H3]; [apply IH; auto; lia|].
    match goal with |- context [for_ lo hi ?B ?s0] => destruct (for_any (fun s : list nat * bool => length (fst s) = nR * nC) lo hi B s0) as ([f1 q] & E1 & L1) end; auto.
    { intros j s1 Hj L1. destruct (get4_ok nR nC j i (fst s1) L1 ltac:(lia) H3) as ([[[a b] c] e] & E). rewrite E. cbn [bind]. destruct (_ && _); [|eauto].
      destruct (set4_ok nR nC j i (fst s1) L1 ltac:(lia) H3) as (f' & E' & L'). rewrite E'. cbn [bind]. eexists. split; [reflexivity|]. auto. }
    rewrite E1. cbn [bind]. cbn [fst] in L1. destruct q; [|apply IH; auto; lia].
    destruct (pad3_ok nR nC lo hi i (f1, true) L1 Hh H3) as ([f2 q2] & E2 & L2). rewrite E2. cbn [bind]. apply IH; auto. lia.
Qed.

Lemma pass2_ok nR nC lo hi : hi <= nC -> forall fuel i f, nR - i <= fuel -> length f = nR * nC -> exists f', pass2 fuel nR lo hi i f = Ok f' /\ length f' = nR * nC.
Proof.
  intros Hh. induction fuel as [|fuel IH]; intros i f Hf L; cbn [pass2].
  - destruct (Nat.leb_spec nR i); [eauto|lia].
  - destruct (Nat.leb_spec nR i); [eauto|]. destruct (Nat.leb_spec nR (i + 3)) as [H3|H3]; [apply IH; auto; lia|].
    match goal with |- context [for_ lo hi ?B ?s0] => destruct (for_any (fun _ : bool => True) lo hi B s0) as (q & E1 & _) end; auto.
    { intros j s1 Hj _. rewrite (rd_ok _ _ 0) by (rewrite L; nia). cbn [bind]. eauto. }
    rewrite E1. cbn [bind].
    assert (exists f2 q2, (if q then Ok (f, true) else pad3 nR lo hi i (f, false)) = Ok (f2, q2) /\ length f2 = nR * nC) as (f2 & q2 & E2 & L2).
    { destruct q; [exists f, true; auto|]. destruct (pad3_ok nR nC lo hi i (f, false) L Hh H3) as ([f2 q2] & E2 & L2). eauto. }
    rewrite E2. cbn [bind]. apply IH; auto. destruct q2; lia.
Qed.

Lemma chunks_ok nR nC maxCo size : 0 < size -> maxCo <= nC -> forall fuel pro lim f, maxCo - pro <= fuel -> length f = nR * nC -> lim <= maxCo -> (pro < maxCo -> pro <= lim) ->
  exists f', chunks fuel nR maxCo size pro lim f = Ok f' /\ length f' = nR * nC.
Proof.
  intros Hs Hm. induction fuel as [|fuel IH]; intros pro lim f Hf L Hl Hp; cbn [chunks].
  - destruct (Nat.ltb_spec pro maxCo); [lia|eauto].
  - destruct (Nat.ltb_spec pro maxCo) as [H|H]; [|eauto]. destruct (Nat.ltb_spec lim pro) as [H1|H1]; [lia|].
    destruct (pass1_ok nR nC pro (lim - pro) ltac:(lia) nR 0 f ltac:(lia) L) as (f1 & E1 & L1). rewrite E1. cbn [bind].
    destruct (pass2_ok nR nC pro (lim - pro) ltac:(lia) nR 0 f1 ltac:(lia) L1) as (f2 & E2 & L2). rewrite E2. cbn [bind]. apply IH; auto; lia.
Qed.

Lemma upd_upd {A} (l : list A) i x y : upd (upd l i x) i y = upd l i y.
Proof. revert i. induction l as [|z l IH]; intros [|i]; cbn; congruence. Qed.

(** C36: fill-in: the output, which holds the matrix before, keeps all values; some which are below the tolerance are replaced by the mark. *)
Theorem C36_fill_in nR nC a : length a = nR * nC ->
  exists o, fillInQfma big small maxv nR nC a a = Ok o /\ length o = nR * nC /\
    forall i j, i < nR -> j < nC -> nth (i * nC + j) o d = nth (i * nC + j) a d \/ (small (nth (i * nC + j) a d) = true /\ nth (i * nC + j) o d = maxv).
Proof.
  intros L. unfold fillInQfma.
  assert (BA : forall i j, i < nR -> j < nC -> i * nC + j < nR * nC) by (intros; nia).
  assert (BF : forall i j, i < nR -> j < nC -> j * nR + i < nR * nC) by (intros; nia).
  match goal with |- context [for_ 0 nC ?B (repeat 0 (nR * nC))] => destruct (for_any (fun f : list nat => length f = nR * nC) 0 nC B (repeat 0 (nR * nC))) as (f & E1 & L1) end.
  { apply repeat_length. }
  { intros j f Hj Lf. apply (for_any (fun f : list nat => length f = nR * nC)); auto. intros i f1 Hi Lf1.
    rewrite (rd_ok _ _ d) by (rewrite L; apply BA; lia). cbn [bind]. rewrite wr_ok by (rewrite Lf1; apply BF; lia). eexists. split; [reflexivity|]. rewrite length_upd; auto. }
  rewrite E1. cbn [bind].
  match goal with |- context [for_ 0 nC ?B 0] => destruct (for_any (fun mc : nat => mc <= nC) 0 nC B 0) as (mc & E2 & L2) end.
  { lia. }
  { intros j mc Hj Lm. apply (for_any (fun mc : nat => mc <= nC)); auto. intros i mc1 Hi Lm1. rewrite (rd_ok _ _ 0) by (rewrite L1; apply BF; lia). cbn [bind].
    eexists. split; [reflexivity|]. destruct (0 <? _); lia. }
  rewrite E2. cbn [bind]. cbv zeta. set (n := if mc mod 28 =? 0 then mc / 28 else mc / 28 + 1).
  destruct (Nat.eqb_spec n 0) as [N0|N0].
  { exists a. split; [reflexivity|]. split; [auto|]. auto. }
  assert (Mc : 0 < mc). { destruct mc; [|lia]. exfalso. apply N0. reflexivity. }
  set (size := if mc mod n =? 0 then mc / n else mc / n + 1).
  assert (Sz : 0 < size <= mc).
  { unfold size. assert (D := Nat.div_mod mc n N0). assert (M := Nat.mod_upper_bound mc n N0). destruct (Nat.eqb_spec (mc mod n) 0) as [E0|E0]; [rewrite E0 in D|]; split; nia. }
  destruct (chunks_ok nR nC mc size ltac:(lia) L2 mc 0 size f ltac:(lia) L1 ltac:(lia) ltac:(lia)) as (f' & E3 & L3). rewrite E3. cbn [bind].
  destruct (nest3 d (fun j i _ => i * nC + j) (fun j i _ _ => if (0 <? nth (j * nR + i) f' 0) && small (nth (i * nC + j) a d) then maxv else nth (i * nC + j) a d)
    (fun j i _ o => v <- rd a (i * nC + j);; o <- wr o (i * nC + j) v;; x <- rd f' (j * nR + i);; if (0 <? x) && small v then wr o (i * nC + j) maxv else Ok o) nC nR 1 (nR * nC) a)
    as (o & E4 & L4 & V4 & _).
  { intros x y z x' y' z' Hx Hy Hz Hx' Hy' Hz' E. assert (y = y') by (destruct (Nat.lt_trichotomy y y') as [H|[H|H]]; auto; exfalso; nia). subst. lia. }
  { intros; apply BA; auto. }
  { intros j i z c Hj Hi Hz Lc. assert (B1 := BA i j Hi Hj). assert (B2 := BF i j Hi Hj).
    rewrite (rd_ok _ _ d) by lia. cbn [bind]. rewrite wr_ok by lia. cbn [bind]. rewrite (rd_ok _ _ 0) by lia. cbn [bind].
    destruct (_ && _); [|reflexivity]. rewrite wr_ok by (rewrite length_upd; lia). rewrite upd_upd. reflexivity. }
  { auto. }
  exists o. split; [|split; [auto|]].
  - rewrite <- E4. apply for_ext. intros j o1. apply for_ext. intros i o2.
    assert (One : forall (B : list T -> res (list T)) c, B c = for_ 0 1 (fun _ c => B c) c) by (intros B c; unfold for_; cbn; destruct (B c); reflexivity).
    apply (One (fun o => v <- rd a (i * nC + j);; o <- wr o (i * nC + j) v;; x <- rd f' (j * nR + i);; if (0 <? x) && small v then wr o (i * nC + j) maxv else Ok o)).
  - intros i j Hi Hj. rewrite (V4 j i 0) by auto. destruct (_ <? _); cbn [andb]; [|auto]. destruct (small _) eqn:E; auto.
Qed.

End Fill.

(** ** Dense to compressed sparse columns *)

Section Unmark.
Variables (isMax : T -> bool) (zero : T).

Definition unmark (v : T) : T := if isMax v then zero else v.

Lemma copy_ok n a : length a = n -> for_ 0 n (fun i t => v <- rd a i;; wr t i v) (repeat zero n) = Ok a.
Proof.
  intros L. destruct (for_ok (fun i t => length t = n /\ forall k, k < i -> nth k t zero = nth k a zero) 0 n (fun i t => v <- rd a i;; wr t i v) (repeat zero n)) as (t & E & Lt & V).
  - lia.
  - split; [apply repeat_length|]. lia.
  - intros k t Hk (Lt & V). rewrite (rd_ok _ _ zero) by lia. cbn [bind]. rewrite wr_ok by lia. eexists. split; [reflexivity|]. split; [rewrite length_upd; auto|].
    intros q Hq. destruct (Nat.eq_dec q k) as [->|Ne]; [apply nth_upd_eq; lia|]. rewrite nth_upd_ne by auto. apply V. lia.
  - rewrite E. f_equal. apply (nth_ext t a zero zero); [congruence|]. intros k Hk. apply V. lia.
Qed.

Lemma unmark_ok (q : bool) va : (q = true \/ forall v, In v va -> isMax v = false) ->
  for_ 0 (length va) (fun i va => v <- rd va i;; if isMax v then _ <- check q;; wr va i zero else Ok va) va = Ok (map unmark va).
Proof.
  intros H.
  destruct (for_ok (fun i t => t = map unmark (firstn i va) ++ skipn i va) 0 (length va) (fun i va => v <- rd va i;; if isMax v then _ <- check q;; wr va i zero else Ok va) va) as (t & E & ->).
  - lia.
  - reflexivity.
  - intros k t Hk ->. assert (exists v r, skipn k va = v :: r) as (v & r & Es).
    { destruct (skipn k va) as [|v r] eqn:E; [|eauto]. assert (length (skipn k va) = 0) by (rewrite E; auto). rewrite skipn_length in *. lia. }
    assert (Lk : length (map unmark (firstn k va)) = k) by (rewrite map_length, firstn_length; lia).
    assert (Nv : nth_error va k = Some v) by (rewrite <- (firstn_skipn k va), nth_error_app2; rewrite firstn_length, Nat.min_l by lia; [rewrite Nat.sub_diag, Es; auto|lia]).
    assert (Sk : skipn (S k) va = r) by (eapply skipn_cons_eq; eauto).
    rewrite Es. unfold rd at 1. rewrite nth_error_app2 by lia. rewrite Lk, Nat.sub_diag. cbn [nth_error bind].
    rewrite (firstn_S_snoc _ _ _ Nv), Sk, map_app, <- app_assoc. cbn [map app].
    assert (Um : unmark v = if isMax v then zero else v) by reflexivity. rewrite Um. destruct (isMax v) eqn:Ev.
    + assert (q = true) as -> by (destruct H as [H|H]; auto; rewrite H in Ev; [discriminate|eapply nth_error_In; eauto]). cbn [check bind].
      rewrite wr_ok by (rewrite app_length; cbn; lia).
      assert (U1 : upd (map unmark (firstn k va) ++ v :: r) k zero = map unmark (firstn k va) ++ zero :: r) by (rewrite <- Lk at 2; apply upd_app_cons). rewrite U1. eauto.
    + eauto.
  - rewrite E, firstn_all, skipn_all, app_nil_r. reflexivity.
Qed.

End Unmark.

Lemma entries_map (f : T -> T) mk n s : f d = d -> (forall o i v, mk o i (f v) = (ro (mk o i v), co (mk o i v), f (nz (mk o i v)))) ->
  entriesOf d mk n {| cVal := map f (cVal s); cPtr := cPtr s; cIdx := cIdx s |} = map (fun e => (ro e, co e, f (nz e))) (entriesOf d mk n s).
Proof.
  intros Fd H. unfold entriesOf. cbn [cVal cPtr cIdx]. rewrite flat_map_concat_map, (flat_map_concat_map _ (seq 0 n)), concat_map, map_map. f_equal. apply map_ext. intros o.
  rewrite map_map. apply map_ext. intros p. rewrite <- H. f_equal. rewrite <- Fd at 1. apply map_nth.
Qed.

Lemma valuesAt_map (f : T -> T) l r c : valuesAt (map (fun e => (ro e, co e, f (nz e))) l) r c = map f (valuesAt l r c).
Proof.
  unfold valuesAt. induction l as [|e l IH]; [reflexivity|]. cbn [map filter]. cbn [ro co fst snd]. destruct (_ && _); cbn [map]; rewrite IH; reflexivity.
Qed.

End Proofs.

(** values which occur are those of entries *)
Lemma entries_values {T} (d : T) mk n s v : wfComp n s -> (forall o i v, nz (mk o i v) = v) -> In v (cVal s) -> exists e, In e (entriesOf d mk n s) /\ nz e = v.
Proof.
  intros (LP & P0 & PM & PN & LI) NZ H. apply In_nth with (d := d) in H. destruct H as (p & Hp & <-). rewrite <- PN in Hp.
  assert (exists o, o < n /\ nth o (cPtr s) 0 <= p < nth (o + 1) (cPtr s) 0) as (o & Ho & Hpo).
  { clear - P0 Hp. induction n as [|n IH]; [lia|]. destruct (Nat.lt_ge_cases p (nth n (cPtr s) 0)) as [H|H].
    - destruct (IH H) as (o & Ho & Hpo). exists o. split; [lia|auto].
    - exists n. rewrite Nat.add_1_r. lia. }
  exists (mk o (nth p (cIdx s) 0) (nth p (cVal s) d)). split; [|apply NZ]. apply in_flat_map. exists o. split; [apply in_seq; lia|].
  apply in_map_iff. exists p. split; [reflexivity|]. apply in_seq. lia.
Qed.

(** C36: dense to compressed sparse columns, with and without fill-in: every value above the tolerance is stored exactly once, at its
    position; without fill-in nothing else is stored; with fill-in only additional zeros. *)
Theorem C36_dense_to_csc {T} (big small isMax : T -> bool) (zero maxv : T) nR nC a subR subC qfma old : length a = nR * nC -> orElse subR nR <= nR -> orElse subC nC <= nC ->
  (forall v, In v a -> isMax v = false) -> isMax zero = false ->
  (qfma = true -> isMax maxv = true /\ forall v, In v a -> small v = true -> big v = false) ->
  exists s, denseToCsc big small isMax zero maxv nR nC a subR subC qfma old = Ok s /\ wfComp (orElse subC nC) s /\ colMajor (cscEntries zero (orElse subC nC) s) /\
    (forall r c, r < orElse subR nR -> c < orElse subC nC -> let v := nth (r * nC + c) a zero in let l := valuesAt (cscEntries zero (orElse subC nC) s) r c in
      (big v = true -> l = [v]) /\ (big v = false -> l = [] \/ (qfma = true /\ l = [zero]))) /\
    (forall r c, orElse subR nR <= r \/ orElse subC nC <= c -> valuesAt (cscEntries zero (orElse subC nC) s) r c = []).
Proof.
  intros L SR SC NM NZ FI. unfold denseToCsc. rewrite (copy_ok isMax zero (nR * nC) a L). cbn [bind].
  assert (exists o, (if qfma then fillInQfma big small maxv nR nC a a else Ok a) = Ok o /\ length o = nR * nC /\
    forall i j, i < nR -> j < nC -> nth (i * nC + j) o zero = nth (i * nC + j) a zero \/
      (qfma = true /\ small (nth (i * nC + j) a zero) = true /\ nth (i * nC + j) o zero = maxv)) as (o & Eo & Lo & Vo).
  { destruct qfma; [|exists a; auto]. destruct (C36_fill_in zero big small maxv nR nC a L) as (o & E & Lo & V). exists o. split; [auto|]. split; [auto|].
    intros i j Hi Hj. destruct (V i j Hi Hj) as [H|[H1 H2]]; auto. }
  rewrite Eo. cbn [bind]. destruct (C36_dense_to_crd zero big nR nC o Lo) as (l & El & _ & Vl & _). rewrite El. cbn [bind].
  destruct (C36_crd_to_csc zero zero (orElse subR nR) (orElse subC nC) l old) as (s & Es & W & CM & Vs). rewrite Es. cbn [bind].
  assert (Ain : forall r c, r < nR -> c < nC -> In (nth (r * nC + c) a zero) a) by (intros; apply nth_In; rewrite L; nia).
  assert (AT : forall r c, r < orElse subR nR -> c < orElse subC nC ->
    valuesAt (cscEntries zero (orElse subC nC) s) r c = if big (nth (r * nC + c) o zero) then [nth (r * nC + c) o zero] else []).
  { intros r c Hr Hc. rewrite Vs, (proj2 (Nat.ltb_lt _ _) Hr), (proj2 (Nat.ltb_lt _ _) Hc). cbn [andb]. apply Vl; lia. }
  rewrite (unmark_ok isMax zero qfma).
  2:{ destruct qfma; [auto|right]. intros v Hv. destruct (entries_values zero (fun c r v => (r, c, v)) _ s v W ltac:(reflexivity) Hv) as (e & He & <-).
      assert (Hin : In (nz e) (valuesAt (cscEntries zero (orElse subC nC) s) (ro e) (co e))).
      { unfold valuesAt. apply in_map. apply filter_In. split; [exact He|]. rewrite !Nat.eqb_refl. reflexivity. }
      assert (Hrc : ro e < orElse subR nR /\ co e < orElse subC nC).
      { rewrite Vs in Hin. destruct (Nat.ltb_spec (ro e) (orElse subR nR)), (Nat.ltb_spec (co e) (orElse subC nC)); cbn [andb] in Hin; try (destruct Hin; fail). auto. }
      destruct Hrc as [Hr Hc]. rewrite AT in Hin by auto. destruct (big _); [|destruct Hin]. destruct Hin as [<-|[]].
      destruct (Vo (ro e) (co e)) as [H|[H _]]; [lia|lia| |discriminate]. rewrite H. apply NM, Ain; lia. }
  cbn [bind]. eexists. split; [reflexivity|]. split; [|].
  { destruct W as (W1 & W2 & W3 & W4 & W5). split; [auto|]. split; [auto|]. split; [auto|]. cbn [cVal cPtr cIdx]. rewrite map_length. auto. }
  assert (UZ : unmark isMax zero zero = zero) by (unfold unmark; rewrite NZ; reflexivity).
  unfold cscEntries. rewrite (entries_map zero (unmark isMax zero) (fun c r v => (r, c, v))) by (auto; reflexivity). fold (cscEntries zero (orElse subC nC) s). split.
  - unfold colMajor in *. revert CM. generalize (cscEntries zero (orElse subC nC) s). intros es CM. induction CM as [|e es S IH F]; cbn [map]; constructor; auto.
    rewrite Forall_forall in *. intros f Hf. apply in_map_iff in Hf. destruct Hf as (f' & <- & Hf). apply F in Hf. exact Hf.
  - split; [|intros r c Hrc; rewrite valuesAt_map, Vs; destruct (Nat.ltb_spec r (orElse subR nR)), (Nat.ltb_spec c (orElse subC nC)); try reflexivity; lia].
    intros r c Hr Hc. cbv zeta. rewrite valuesAt_map, AT by auto. assert (Hv := Ain r c ltac:(lia) ltac:(lia)).
    destruct (Vo r c ltac:(lia) ltac:(lia)) as [->|(Q & Sm & ->)].
    + assert (U : unmark isMax zero (nth (r * nC + c) a zero) = nth (r * nC + c) a zero) by (unfold unmark; rewrite NM; auto).
      split; intros ->; cbn [map]; [rewrite U; reflexivity|auto].
    + destruct (FI Q) as [M1 M2]. rewrite (M2 _ Hv Sm). split; [discriminate|]. intros _.
      destruct (big maxv); cbn [map]; [right|left; auto]. unfold unmark. rewrite M1. auto.
Qed.

(** ** Blocks of non-zeros *)

(** entry within the bounds *)
Definition within {T} (b : block) (e : entry T) : Prop :=
  (forall l, fst (fst b) = Some l -> l <= ro e) /\ (forall h, snd (fst b) = Some h -> ro e <= h) /\
  (forall l, fst (snd b) = Some l -> l <= co e) /\ (forall h, snd (snd b) = Some h -> co e <= h).

(** C36: the block is the smallest one which contains all entries within the given bounds. *)
Theorem C36_block {T} (m : list (entry T)) b :
  ((forall e, In e m -> ~ within b e) -> getBlockNz m b = ((None, None), (None, None))) /\
  ((exists e, In e m /\ within b e) -> exists r0 r1 c0 c1, getBlockNz m b = ((Some r0, Some r1), (Some c0, Some c1)) /\
    (forall e, In e m -> within b e -> r0 <= ro e <= r1 /\ c0 <= co e <= c1) /\
    (exists e, In e m /\ within b e /\ ro e = r0) /\ (exists e, In e m /\ within b e /\ ro e = r1) /\
    (exists e, In e m /\ within b e /\ co e = c0) /\ (exists e, In e m /\ within b e /\ co e = c1)).
Proof.
  unfold getBlockNz. set (inb := inBounds b).
  assert (IN : forall e, inb e = true <-> within b e).
  { intros e. unfold inb, inBounds, within. cbv zeta. destruct b as [[l0 l1] [l2 l3]]. cbn [fst snd]. rewrite !andb_true_iff.
    assert (A1 : forall o x, (match o with Some l => l <=? x | None => true end) = true <-> forall l, o = Some l -> l <= x).
    { intros [l|] x; [rewrite Nat.leb_le|]; split; intros; try congruence; auto. }
    assert (A2 : forall o x, (match o with Some l => x <=? l | None => true end) = true <-> forall l, o = Some l -> x <= l).
    { intros [l|] x; [rewrite Nat.leb_le|]; split; intros; try congruence; auto. }
    rewrite !A1, !A2. tauto. }
  set (st := fun (o : block) e => if inb e then extend o e else o).
  set (Q := fun (l : list (entry T)) (o : block) => ((forall e, In e l -> inb e = false) /\ o = ((None, None), (None, None))) \/
    (exists r0 r1 c0 c1, o = ((Some r0, Some r1), (Some c0, Some c1)) /\ (forall e, In e l -> inb e = true -> r0 <= ro e <= r1 /\ c0 <= co e <= c1) /\
    (exists e, In e l /\ inb e = true /\ ro e = r0) /\ (exists e, In e l /\ inb e = true /\ ro e = r1) /\
    (exists e, In e l /\ inb e = true /\ co e = c0) /\ (exists e, In e l /\ inb e = true /\ co e = c1))).
  assert (QQ : Q m (fold_left st m ((None, None), (None, None)))).
  { induction m as [|e l IH] using rev_ind; [left; split; [intros e []|reflexivity]|]. rewrite fold_left_app. cbn [fold_left].
    assert (AP : forall P : entry T -> Prop, (exists e, In e l /\ inb e = true /\ P e) -> exists f, In f (l ++ [e]) /\ inb f = true /\ P f).
    { intros P (f & Hf & R). exists f. split; [apply in_app_iff; auto|auto]. }
    assert (Hin : In e (l ++ [e])) by (apply in_app_iff; right; left; auto).
    unfold st at 1. destruct (inb e) eqn:Ei; unfold extend; cbv zeta.
    - right. destruct IH as [[N E]|(r0 & r1 & c0 & c1 & E & A & B1 & B2 & B3 & B4)]; rewrite E; cbn [fst snd].
      + exists (ro e), (ro e), (co e), (co e). split; [reflexivity|]. split.
        * intros f Hf If. apply in_app_iff in Hf. destruct Hf as [Hf|[<-|[]]]; [rewrite N in If by auto; discriminate|lia].
        * repeat split; exists e; auto.
      + exists (Nat.min r0 (ro e)), (Nat.max r1 (ro e)), (Nat.min c0 (co e)), (Nat.max c1 (co e)). split.
        * destruct (Nat.ltb_spec (ro e) r0), (Nat.ltb_spec r1 (ro e)), (Nat.ltb_spec (co e) c0), (Nat.ltb_spec c1 (co e)); repeat f_equal; lia.
        * split; [intros f Hf If; apply in_app_iff in Hf; destruct Hf as [Hf|[<-|[]]]; [destruct (A f Hf If)|]; lia|].
          split; [|split; [|split]].
          -- destruct (Nat.le_gt_cases r0 (ro e)); [rewrite Nat.min_l by lia; apply AP; auto|rewrite Nat.min_r by lia; exists e; auto].
          -- destruct (Nat.le_gt_cases (ro e) r1); [rewrite Nat.max_l by lia; apply AP; auto|rewrite Nat.max_r by lia; exists e; auto].
          -- destruct (Nat.le_gt_cases c0 (co e)); [rewrite Nat.min_l by lia; apply AP; auto|rewrite Nat.min_r by lia; exists e; auto].
          -- destruct (Nat.le_gt_cases (co e) c1); [rewrite Nat.max_l by lia; apply AP; auto|rewrite Nat.max_r by lia; exists e; auto].
    - destruct IH as [[N E]|(r0 & r1 & c0 & c1 & E & A & B1 & B2 & B3 & B4)]; rewrite E.
      + left. split; [|reflexivity]. intros f Hf. apply in_app_iff in Hf. destruct Hf as [Hf|[<-|[]]]; auto.
      + right. exists r0, r1, c0, c1. split; [reflexivity|]. split; [|repeat split; apply AP; auto].
        intros f Hf If. apply in_app_iff in Hf. destruct Hf as [Hf|[<-|[]]]; [auto|congruence]. }
  destruct QQ as [[N E]|(r0 & r1 & c0 & c1 & E & A & B1 & B2 & B3 & B4)]; split; intros H.
  - exact E.
  - exfalso. destruct H as (e & He & W). apply IN in W. rewrite N in W; auto. discriminate.
  - exfalso. destruct B1 as (e & He & W & _). apply IN in W. apply (H e); auto.
  - exists r0, r1, c0, c1. split; [exact E|]. split; [intros e He W; apply A; auto; apply IN; auto|].
    assert (CV : forall P : entry T -> Prop, (exists e, In e m /\ inb e = true /\ P e) -> exists e, In e m /\ within b e /\ P e).
    { intros P (e & He & W & R). exists e. split; [auto|]. split; [apply IN; auto|auto]. }
    repeat split; apply CV; auto.
Qed.
Print Assumptions C36_dense_to_crd.
Print Assumptions C36_transpose_crd.
Print Assumptions C36_crd_to_csr.
Print Assumptions C36_crd_to_csc.
Print Assumptions C36_dense_to_csr.
Print Assumptions C36_fill_in.
Print Assumptions C36_dense_to_csc.
Print Assumptions C36_block.

(** *** Examples: values in Z, tolerance 1, mark 1000 *)
Definition exBig (v : Z) := (1 <? Z.abs v)%Z.
Definition exSmall (v : Z) := (Z.abs v <? 1)%Z.
Definition exMax (v : Z) := (v =? 1000)%Z.
Definition exDense : list Z := [5; 0; 7; 1; 5; 5; 0; 5; 0; 6; 5; 5]%Z.

Example C36_example_csr : denseToCsr exBig 0%Z 4 3 exDense None (Some 2) {| cVal := [9]%Z; cPtr := []; cIdx := [1; 2; 3; 4; 5; 6] |} =
  Ok {| cVal := [5; 5; 5; 6; 5]%Z; cPtr := [0; 1; 2; 3; 5]; cIdx := [0; 1; 1; 0; 1] |}.
Proof. vm_compute. reflexivity. Qed.

Example C36_example_csc : denseToCsc exBig exSmall exMax 0%Z 1000%Z 4 3 exDense None None true {| cVal := []; cPtr := []; cIdx := [] |} =
  Ok {| cVal := [5; 6; 0; 5; 5; 5; 7; 5; 0; 5]%Z; cPtr := [0; 2; 6; 10]; cIdx := [0; 3; 0; 1; 2; 3; 0; 1; 2; 3] |} /\
  (forall v, In v exDense -> exMax v = false /\ (exSmall v = true -> exBig v = false)) /\ exMax 1000 = true.
Proof.
  split; [vm_compute; reflexivity|]. split; [|reflexivity]. intros v H. cbn in H.
  repeat (destruct H as [<-|H]; [split; [reflexivity|vm_compute; intros; try discriminate; reflexivity]|]). destruct H.
Qed.

Example C36_example_block : getBlockNz [(0, 0, 1%Z); (1, 1, 1%Z); (2, 0, 1%Z); (3, 1, 1%Z); (3, 3, 1%Z)] ((Some 0, Some 2), (None, None)) = ((Some 0, Some 2), (Some 0, Some 1)) /\
  transposeCrd [(0, 2, 3%Z); (1, 0, 4%Z)] = Ok [(0, 1, 4%Z); (2, 0, 3%Z)].
Proof. vm_compute. auto. Qed.
