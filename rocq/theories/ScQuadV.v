(** Proofs about the sub-grids of quads. *)
From Coq Require Import List Arith Bool Lia FinFun.
From Verif Require Import ScQuad.
Import ListNotations.

(** a square of the sub-grid, a ghost at a face *)
Inductive kind := Sq (x y : nat) | Gh (fa sf : nat).
Definition kind_dec (a b : kind) : {a = b} + {a <> b}. Proof. decide equality; apply Nat.eq_dec. Defined.
Definition okKind (n : nat) (k : kind) : Prop := match k with Sq x y => x < n /\ y < n | Gh fa sf => fa < 4 /\ sf < n end.

(** ** Order of the sub-cells *)
Definition inner_ (n : nat) : list kind := flat_map (fun f2 => map (fun f1 => Sq f1 f2) (range 1 (n - 1))) (range 1 (n - 1)).
Definition send_ (n : nat) : list kind :=
  map (fun f1 => Sq f1 0) (range 0 n) ++ map (fun f2 => Sq (n - 1) f2) (range 1 n) ++ map (fun f1 => Sq f1 (n - 1)) (down (n - 1) 0) ++ map (fun f2 => Sq 0 f2) (down (n - 1) 1).
Definition recv_ (n : nat) : list kind := map (Gh 0) (seq 0 n) ++ map (Gh 1) (seq 0 n) ++ map (Gh 2) (seq 0 n) ++ map (Gh 3) (seq 0 n).
Definition order (n : nat) : list kind := inner_ n ++ send_ n ++ recv_ n.

Lemma in_range a b x : In x (range a b) <-> a <= x < b. Proof. unfold range. rewrite in_seq. lia. Qed.
Lemma in_down a b x : In x (down a b) <-> b <= x < a. Proof. unfold down. rewrite <- in_rev, in_seq. lia. Qed.
Lemma nodup_range a b : NoDup (range a b). Proof. apply seq_NoDup. Qed.
Lemma nodup_down a b : NoDup (down a b). Proof. apply NoDup_rev, seq_NoDup. Qed.
Lemma len_range a b : length (range a b) = b - a. Proof. apply seq_length. Qed.
Lemma len_down a b : length (down a b) = a - b. Proof. unfold down. rewrite rev_length. apply seq_length. Qed.
Lemma nodup_app {A} (l l' : list A) : NoDup l -> NoDup l' -> (forall x, In x l -> ~ In x l') -> NoDup (l ++ l').
Proof.
  induction l as [|a l IH]; intros N N' D; cbn; auto. inversion N; subst. constructor.
  - intros H. apply in_app_or in H. destruct H; [auto|]. apply (D a); auto. now left.
  - apply IH; auto. intros x Hx. apply D. now right.
Qed.
Lemma nodup_map {A B} (f : A -> B) l : (forall x y, f x = f y -> x = y) -> NoDup l -> NoDup (map f l). Proof. intros I. apply Injective_map_NoDup. exact I. Qed.

Lemma in_inner n k : In k (inner_ n) <-> exists x y, k = Sq x y /\ 1 <= x < n - 1 /\ 1 <= y < n - 1.
Proof.
  unfold inner_. rewrite in_flat_map. split.
  - intros (y & Hy & H). apply in_map_iff in H. destruct H as (x & <- & Hx). apply in_range in Hx, Hy. eauto.
  - intros (x & y & -> & Hx & Hy). exists y. rewrite in_range. split; auto. apply in_map_iff. exists x. rewrite in_range. auto.
Qed.
Lemma nodup_inner n : NoDup (inner_ n).
Proof.
  enough (X : forall l, NoDup l -> NoDup (flat_map (fun f2 => map (fun f1 => Sq f1 f2) (range 1 (n - 1))) l)) by (apply X, nodup_range). induction l as [|y l IH]; intros N; [constructor|]. cbn [flat_map]. inversion N; subst. apply nodup_app; auto.
  - apply nodup_map; [congruence|apply nodup_range].
  - intros k H1' H2'. apply in_map_iff in H1'. destruct H1' as (x & <- & _). apply in_flat_map in H2'. destruct H2' as (y' & Hy & H'). apply in_map_iff in H'. destruct H' as (x' & E & _). injection E as -> ->. auto.
Qed.
Ltac inm H := apply in_map_iff in H; destruct H as (? & <- & H); rewrite ?in_range, ?in_down, ?in_seq in H.
Lemma in_send n k : In k (send_ n) -> exists x y, k = Sq x y /\ x < n /\ y < n /\ (x = 0 \/ y = 0 \/ x = n - 1 \/ y = n - 1).
Proof. unfold send_. rewrite !in_app_iff. intros [H|[H|[H|H]]]; inm H; eexists _, _; (split; [reflexivity|]); lia. Qed.
Lemma send_in n x y : x < n -> y < n -> (x = 0 \/ y = 0 \/ x = n - 1 \/ y = n - 1) -> In (Sq x y) (send_ n).
Proof.
  intros Hx Hy H. unfold send_. rewrite !in_app_iff. destruct (Nat.eq_dec y 0) as [->|Y0]; [left; apply in_map_iff; exists x; rewrite in_range; split; [auto|lia]|].
  destruct (Nat.eq_dec x (n - 1)) as [->|X1]; [right; left; apply in_map_iff; exists y; rewrite in_range; split; [auto|lia]|].
  destruct (Nat.eq_dec y (n - 1)) as [->|Y1]; [do 2 right; left; apply in_map_iff; exists x; rewrite in_down; split; [auto|lia]|].
  do 3 right. assert (x = 0) by lia. subst. apply in_map_iff. exists y. rewrite in_down. split; [auto|lia].
Qed.
Lemma nodup_send n : NoDup (send_ n).
Proof.
  unfold send_. repeat apply nodup_app; try (apply nodup_map; [congruence|apply nodup_range || apply nodup_down]); intros k H H'; inm H; rewrite ?in_app_iff in H'.
  - apply in_map_iff in H'; destruct H' as (z & E & Hz); injection E; intros; rewrite ?in_range, ?in_down in Hz; lia.
  - destruct H' as [H'|H']; apply in_map_iff in H'; destruct H' as (z & E & Hz); injection E; intros; rewrite ?in_range, ?in_down in Hz; lia.
  - destruct H' as [H'|[H'|H']]; apply in_map_iff in H'; destruct H' as (z & E & Hz); injection E; intros; rewrite ?in_range, ?in_down in Hz; lia.
Qed.
Lemma in_recv n k : In k (recv_ n) <-> exists fa sf, k = Gh fa sf /\ fa < 4 /\ sf < n.
Proof.
  unfold recv_. rewrite !in_app_iff. split.
  - intros [H|[H|[H|H]]]; inm H; eexists _, _; (split; [reflexivity|]); lia.
  - intros (fa & sf & -> & Hf & Hs). assert (S : In sf (seq 0 n)) by (apply in_seq; lia). destruct fa as [|[|[|[|fa]]]]; [| | | |lia]; rewrite !in_map_iff; eauto 8.
Qed.
Lemma nodup_recv n : NoDup (recv_ n).
Proof.
  unfold recv_. repeat apply nodup_app; try (apply nodup_map; [congruence|apply seq_NoDup]); intros k H H'; inm H; rewrite ?in_app_iff in H'.
  - apply in_map_iff in H'; destruct H' as (z & E & Hz); discriminate.
  - destruct H' as [H'|H']; apply in_map_iff in H'; destruct H' as (z & E & Hz); discriminate.
  - destruct H' as [H'|[H'|H']]; apply in_map_iff in H'; destruct H' as (z & E & Hz); discriminate.
Qed.
Lemma in_order n k : In k (order n) <-> okKind n k.
Proof.
  unfold order. rewrite !in_app_iff, in_inner, in_recv. split.
  - intros [H|[H|H]]; [destruct H as (x & y & -> & H)|apply in_send in H; destruct H as (x & y & -> & H)|destruct H as (fa & sf & -> & H)]; cbn; lia.
  - destruct k as [x y|fa sf]; cbn; intros H; [|right; right; eauto]. destruct (Nat.eq_dec x 0), (Nat.eq_dec y 0), (Nat.eq_dec x (n - 1)), (Nat.eq_dec y (n - 1)); try (right; left; apply send_in; lia). left. exists x, y. split; auto. lia.
Qed.
Lemma nodup_order n : NoDup (order n).
Proof.
  unfold order. apply nodup_app; [apply nodup_inner|apply nodup_app; [apply nodup_send|apply nodup_recv|]|].
  - intros k H H'. apply in_send in H. destruct H as (x & y & -> & _). apply in_recv in H'. destruct H' as (? & ? & E & _). discriminate.
  - intros k H H'. apply in_inner in H. destruct H as (x & y & -> & H). apply in_app_or in H'. destruct H' as [H'|H'].
    + apply in_send in H'. destruct H' as (x' & y' & E & H'). injection E as <- <-. lia.
    + apply in_recv in H'. destruct H' as (? & ? & E & _). discriminate.
Qed.
Lemma len_inner n : length (inner_ n) = (n - 2) * (n - 2).
Proof.
  unfold inner_. assert (X : forall l, length (flat_map (fun f2 => map (fun f1 => Sq f1 f2) (range 1 (n - 1))) l) = length l * (n - 2)) by (induction l; cbn; auto; rewrite app_length, map_length, len_range, IHl; lia).
  rewrite X, len_range. replace (n - 1 - 1) with (n - 2) by lia. reflexivity.
Qed.
Lemma len_send n : length (send_ n) = n + (n - 1) + (n - 1) + (n - 2).
Proof. unfold send_. rewrite !app_length, !map_length, !len_range, !len_down. lia. Qed.
Lemma len_squares n : 0 < n -> length (inner_ n ++ send_ n) = n * n.
Proof. intros H. rewrite app_length, len_inner, len_send. destruct n as [|[|n]]; [lia|reflexivity|]. cbn [Nat.sub]. rewrite ?Nat.sub_0_r. nia. Qed.
Lemma len_order n : 0 < n -> length (order n) = n * n + 4 * n.
Proof. intros H. unfold order. rewrite app_assoc, app_length, len_squares by auto. unfold recv_. rewrite !app_length, !map_length, !seq_length. lia. Qed.

(** number of a sub-cell *)
Fixpoint idx (k : kind) (l : list kind) : nat := match l with [] => 0 | a :: l => if kind_dec a k then 0 else S (idx k l) end.
Lemma idx_nth k l : In k l -> nth_error l (idx k l) = Some k.
Proof. induction l as [|a l IH]; intros H; [destruct H|]. cbn. destruct (kind_dec a k) as [->|N]; cbn; auto. apply IH. destruct H; [congruence|auto]. Qed.
Lemma idx_lt k l : In k l -> idx k l < length l. Proof. intros H. apply nth_error_Some. rewrite idx_nth by auto. congruence. Qed.
Definition num (n : nat) (k : kind) : nat := idx k (order n).
Lemma num_nth n k : okKind n k -> nth_error (order n) (num n k) = Some k. Proof. intros H. apply idx_nth, in_order. auto. Qed.
Lemma num_inj n k k' : okKind n k -> okKind n k' -> num n k = num n k' -> k = k'.
Proof. intros H H' E. assert (A := num_nth n k H). assert (B := num_nth n k' H'). rewrite E in A. congruence. Qed.
Lemma num_unique n c k : nth_error (order n) c = Some k -> c = num n k.
Proof.
  intros H. assert (I : okKind n k) by (apply in_order; apply nth_error_In in H; auto). assert (A := num_nth n k I). assert (ND := nodup_order n). rewrite NoDup_nth_error in ND. apply ND; [apply nth_error_Some; congruence|congruence].
Qed.
Lemma num_lt n k : 0 < n -> okKind n k -> num n k < n * n + 4 * n.
Proof. intros H K. rewrite <- len_order by auto. apply idx_lt, in_order. auto. Qed.
Lemma num_sq n x y : 0 < n -> x < n -> y < n -> num n (Sq x y) < n * n.
Proof.
  intros H Hx Hy. assert (I : In (Sq x y) (inner_ n ++ send_ n)).
  { assert (K : In (Sq x y) (order n)) by (apply in_order; cbn; auto). unfold order in K. rewrite app_assoc in K. apply in_app_or in K. destruct K as [K|K]; auto. apply in_recv in K. destruct K as (? & ? & E & _). discriminate. }
  rewrite <- len_squares by auto. assert (E : num n (Sq x y) = idx (Sq x y) (inner_ n ++ send_ n)).
  { symmetry. apply num_unique. unfold order. rewrite app_assoc, nth_error_app1 by (apply idx_lt; auto). apply idx_nth; auto. }
  rewrite E. apply idx_lt; auto.
Qed.
Lemma nth_map_seq {A} (f : nat -> A) n i : i < n -> nth_error (map f (seq 0 n)) i = Some (f i).
Proof. intros H. rewrite nth_error_map, (nth_error_nth' _ 0) by (rewrite seq_length; auto). rewrite seq_nth by auto. reflexivity. Qed.
Lemma num_gh n fa sf : 0 < n -> fa < 4 -> sf < n -> num n (Gh fa sf) = n * n + n * fa + sf.
Proof.
  intros H Hf Hs. symmetry. apply num_unique. unfold order. rewrite app_assoc, nth_error_app2 by (rewrite len_squares by auto; lia). rewrite len_squares by auto. unfold recv_.
  destruct fa as [|[|[|[|fa]]]]; [| | | |lia].
  - rewrite nth_error_app1 by (rewrite map_length, seq_length; lia). replace (n * n + n * 0 + sf - n * n) with sf by lia. apply nth_map_seq; auto.
  - rewrite nth_error_app2 by (rewrite map_length, seq_length; lia). rewrite map_length, seq_length, nth_error_app1 by (rewrite map_length, seq_length; lia). replace (n * n + n * 1 + sf - n * n - n) with sf by lia. apply nth_map_seq; auto.
  - do 2 (rewrite nth_error_app2 by (rewrite ?map_length, ?seq_length; lia); rewrite map_length, seq_length). rewrite nth_error_app1 by (rewrite map_length, seq_length; lia). replace (n * n + n * 2 + sf - n * n - n - n) with sf by lia. apply nth_map_seq; auto.
  - do 3 (rewrite nth_error_app2 by (rewrite ?map_length, ?seq_length; lia); rewrite map_length, seq_length). replace (n * n + n * 3 + sf - n * n - n - n - n) with sf by lia. apply nth_map_seq; auto.
Qed.

(** ** Vertices *)
Definition id (n x y : nat) : nat := y * (n + 1) + x.
Lemma id_inj n x y x' y' : x <= n -> x' <= n -> id n x y = id n x' y' -> x = x' /\ y = y'.
Proof. unfold id. intros H H' E. assert (y = y') by (destruct (Nat.lt_trichotomy y y') as [L|[L|L]]; auto; exfalso; nia). subst. lia. Qed.
Definition recvVe (n fa sf : nat) : verts :=
  match fa with
  | 0 => [Some (id n sf 0); Some (id n (sf + 1) 0); None; None]
  | 1 => [Some (id n n sf); Some (id n n (sf + 1)); None; None]
  | 2 => [Some (id n (n - sf) n); Some (id n (n - 1 - sf) n); None; None]
  | _ => [Some (id n 0 (n - sf)); Some (id n 0 (n - 1 - sf)); None; None]
  end.
Definition ves (n : nat) (k : kind) : verts := match k with Sq x y => [Some (id n x y); Some (id n (x + 1) y); Some (id n (x + 1) (y + 1)); Some (id n x (y + 1))] | Gh fa sf => recvVe n fa sf end.
Ltac rows tac := repeat (apply f_equal2; [first [reflexivity|apply f_equal; tac]|]); try reflexivity.
Lemma svIds_ves n x y : svIds n x y = ves n (Sq x y).
Proof. unfold svIds, ves, id. rows lia. Qed.
Lemma map_down {A} (f : nat -> A) n : map f (down n 0) = map (fun i => f (n - 1 - i)) (seq 0 n).
Proof.
  unfold down. rewrite Nat.sub_0_r. apply nth_ext with (d := f 0) (d' := f 0); [rewrite !map_length, rev_length; auto|]. intros i Hi. rewrite map_length, rev_length, seq_length in Hi.
  rewrite (map_nth f). rewrite rev_nth, seq_length by (rewrite seq_length; auto). rewrite seq_nth by lia. rewrite (nth_indep _ (f 0) (f (n - 1 - 0))) by (rewrite map_length, seq_length; auto). rewrite (map_nth (fun i => f (n - 1 - i))), seq_nth by auto. f_equal. lia.
Qed.
Lemma recv_ves n : scSvRecv n = map (ves n) (recv_ n).
Proof.
  unfold scSvRecv, recv_. rewrite !map_down, !map_app, !map_map. unfold range. rewrite Nat.sub_0_r. apply (f_equal2 (@app verts)); [|apply (f_equal2 (@app verts)); [|apply (f_equal2 (@app verts))]]; apply map_ext_in; intros i Hi; apply in_seq in Hi; unfold ves, recvVe, id; rows nia.
Qed.
Lemma in_ves n : scSvIn n = map (ves n) (inner_ n).
Proof. unfold scSvIn, inner_. generalize (range 1 (n - 1)) as r. intros r. enough (X : forall l, flat_map (fun f2 => map (fun f1 => svIds n f1 f2) r) l = map (ves n) (flat_map (fun f2 => map (fun f1 => Sq f1 f2) r) l)) by apply X. induction l as [|y l IH]; auto. cbn [flat_map]. rewrite map_app, map_map, IH. f_equal. apply map_ext. intros. apply svIds_ves. Qed.
Lemma send_ves n : scSvSend n = map (ves n) (send_ n).
Proof. unfold scSvSend, send_. rewrite !map_app, !map_map. apply (f_equal2 (@app verts)); [|apply (f_equal2 (@app verts)); [|apply (f_equal2 (@app verts))]]; apply map_ext; intros; apply svIds_ves. Qed.

(** faces *)
Definition fcs (n : nat) (k : kind) : list verts := match k with Sq _ _ => faces (ves n k) | Gh _ _ => map reset (faces (ves n k)) end.
Definition noF : verts := [None; None].
Definition fc (n : nat) (k : kind) (j : nat) : verts := nth j (fcs n k) noF.
Lemma len_fcs n k : length (fcs n k) = 4. Proof. destruct k; reflexivity. Qed.
Lemma all_faces deg : let n := nSfs deg in scSfSv deg = (map (fcs n) (inner_ n), map (fcs n) (send_ n), map (fcs n) (recv_ n)).
Proof.
  cbv zeta. unfold scSfSv, scSv. rewrite in_ves, send_ves, recv_ves, !map_map. f_equal; [f_equal|]; apply map_ext_in; intros k Hk.
  - apply in_inner in Hk. destruct Hk as (x & y & -> & _). reflexivity.
  - apply in_send in Hk. destruct Hk as (x & y & -> & _). reflexivity.
  - apply in_recv in Hk. destruct Hk as (x & y & -> & _). reflexivity.
Qed.

(** edge of a face: horizontal?, left or lower vertex *)
Definition edge (n : nat) (k : kind) (j : nat) : option (bool * nat * nat) :=
  match k, j with
  | Sq x y, 0 => Some (true, x, y) | Sq x y, 1 => Some (false, x + 1, y) | Sq x y, 2 => Some (true, x, y + 1) | Sq x y, 3 => Some (false, x, y)
  | Gh 0 sf, 0 => Some (true, sf, 0) | Gh 1 sf, 0 => Some (false, n, sf) | Gh 2 sf, 0 => Some (true, n - 1 - sf, n) | Gh 3 sf, 0 => Some (false, 0, n - 1 - sf)
  | _, _ => None
  end.
Definition isEdge (n : nat) (e : bool * nat * nat) (f : verts) : Prop :=
  let '(h, x, y) := e in let b := if h : bool then id n (x + 1) y else id n x (y + 1) in f = [Some (id n x y); Some b] \/ f = [Some b; Some (id n x y)].
Lemma edge_fc n k j : okKind n k -> j < 4 -> match edge n k j with Some e => isEdge n e (fc n k j) | None => fc n k j = noF end.
Proof.
  intros K Hj. destruct k as [x y|fa sf]; cbn in K.
  - destruct j as [|[|[|[|j]]]]; [| | | |lia]; cbn; auto.
  - destruct fa as [|[|[|[|fa]]]]; [| | | |lia]; destruct j as [|[|[|[|j]]]]; try lia; cbn; auto.
    + right. replace (n - 1 - sf + 1) with (n - sf) by lia. reflexivity.
    + right. replace (n - 1 - sf + 1) with (n - sf) by lia. reflexivity.
Qed.
Lemma edge_bound n k j h x y : okKind n k -> edge n k j = Some (h, x, y) -> x <= n /\ (h = true -> x + 1 <= n).
Proof.
  intros K E. destruct k as [a b|fa sf]; cbn in K.
  - destruct j as [|[|[|[|j]]]]; cbn in E; try discriminate; injection E as <- <- <-; split; intros; try discriminate; lia.
  - destruct fa as [|[|[|[|fa]]]]; try lia; destruct j; cbn in E; try discriminate; injection E as <- <- <-; split; intros; try discriminate; lia.
Qed.
Lemma setEq_pair a b c e : setEq [Some a; Some b] [Some c; Some e] = true -> a <> b -> (a = c /\ b = e) \/ (a = e /\ b = c).
Proof.
  unfold setEq. cbn. rewrite !orb_false_r, !andb_true_r. intros H N. rewrite !andb_true_iff, !orb_true_iff, !Nat.eqb_eq in H. lia.
Qed.
Lemma setEq_same a b c e : (a = c /\ b = e) \/ (a = e /\ b = c) -> setEq [Some a; Some b] [Some c; Some e] = true.
Proof. unfold setEq. cbn. intros [(-> & ->)|(-> & ->)]; rewrite !Nat.eqb_refl, ?orb_true_r; reflexivity. Qed.
Lemma edge_match n k j k' j' : okKind n k -> okKind n k' -> j < 4 -> j' < 4 -> edge n k j <> None -> (setEq (fc n k j) (fc n k' j') = true <-> edge n k j = edge n k' j').
Proof.
  intros K K' Hj Hj' E. assert (A := edge_fc n k j K Hj). assert (B := edge_fc n k' j' K' Hj'). destruct (edge n k j) as [((h & x) & y)|] eqn:E1; [|congruence]. assert (X := edge_bound n k j h x y K E1).
  destruct (edge n k' j') as [((h' & x') & y')|] eqn:E2.
  - assert (X' := edge_bound n k' j' h' x' y' K' E2). unfold isEdge in A, B. set (b := if h then id n (x + 1) y else id n x (y + 1)) in *. set (b' := if h' then id n (x' + 1) y' else id n x' (y' + 1)) in *.
    assert (NB : id n x y < b) by (unfold b, id; destruct h; nia). assert (NB' : id n x' y' < b') by (unfold b', id; destruct h'; nia).
    split.
    + intros H. assert (EQ : id n x y = id n x' y' /\ b = b') by (destruct A as [A|A], B as [B|B]; rewrite A, B in H; apply setEq_pair in H; lia). destruct EQ as (Q1 & Q2). apply id_inj in Q1; [|lia|lia]. destruct Q1 as (<- & <-).
      unfold b, b', id in Q2. destruct h, h'; auto; exfalso; assert (n >= 1) by (destruct k; cbn in K; lia); nia.
    + intros H. injection H as <- <- <-. fold b in b'. destruct A as [A|A], B as [B|B]; rewrite A, B; apply setEq_same; auto.
  - split; [|discriminate]. intros H. rewrite B in H. destruct A as [A|A]; rewrite A in H; cbn in H; discriminate.
Qed.

(** ** Neighbours *)
(** sub-cell and face opposite to a face *)
Definition opp (n : nat) (k : kind) (j : nat) : kind * nat :=
  match k, j with
  | Sq x y, 0 => if y =? 0 then (Gh 0 x, 0) else (Sq x (y - 1), 2)
  | Sq x y, 1 => if x + 1 =? n then (Gh 1 y, 0) else (Sq (x + 1) y, 3)
  | Sq x y, 2 => if y + 1 =? n then (Gh 2 (n - 1 - x), 0) else (Sq x (y + 1), 0)
  | Sq x y, _ => if x =? 0 then (Gh 3 (n - 1 - y), 0) else (Sq (x - 1) y, 1)
  | Gh 0 sf, _ => (Sq sf 0, 0)
  | Gh 1 sf, _ => (Sq (n - 1) sf, 1)
  | Gh 2 sf, _ => (Sq (n - 1 - sf) (n - 1), 2)
  | Gh _ sf, _ => (Sq 0 (n - 1 - sf), 3)
  end.
Ltac eqbs := repeat match goal with |- context[?a =? ?b] => destruct (Nat.eqb_spec a b) end.
Lemma opp_ok n k j : okKind n k -> j < 4 -> edge n k j <> None -> let o := opp n k j in okKind n (fst o) /\ snd o < 4 /\ fst o <> k /\ edge n (fst o) (snd o) = edge n k j.
Proof.
  intros K Hj E. cbv zeta. destruct k as [x y|fa sf]; cbn in K.
  - destruct j as [|[|[|[|j]]]]; [| | | |lia]; cbn [opp]; eqbs; cbn; subst; (split; [lia|]); (split; [lia|]); (split; [try discriminate; intros Q; injection Q; lia|]); repeat f_equal; lia.
  - destruct fa as [|[|[|[|fa]]]]; [| | | |lia]; (destruct j as [|j]; [|destruct j; cbn in E; congruence]); cbn; (split; [lia|]); (split; [lia|]); (split; [discriminate|]); repeat f_equal; lia.
Qed.
Lemma opp_unique n k j k' j' : okKind n k -> okKind n k' -> j < 4 -> j' < 4 -> edge n k j <> None -> edge n k j = edge n k' j' -> k' <> k -> (k', j') = opp n k j.
Proof.
  intros K K' Hj Hj' E Q N. destruct k as [x y|fa sf], k' as [x' y'|fa' sf']; cbn in K, K'.
  - destruct j as [|[|[|[|j]]]]; [| | | |lia]; (destruct j' as [|[|[|[|j']]]]; [| | | |lia]); cbn in Q; try discriminate; injection Q; intros; subst; cbn [opp]; eqbs; try lia; try (exfalso; apply N; f_equal; lia); repeat f_equal; try lia; exfalso; apply N; f_equal; lia.
  - destruct j as [|[|[|[|j]]]]; [| | | |lia]; (destruct fa' as [|[|[|[|fa']]]]; [| | | |lia]); (destruct j' as [|j']; cbn in Q; try discriminate; try (destruct j'; discriminate)); injection Q; intros; subst; cbn [opp]; eqbs; try lia; repeat f_equal; lia.
  - destruct fa as [|[|[|[|fa]]]]; [| | | |lia]; (destruct j as [|j]; [|destruct j; cbn in E; congruence]); (destruct j' as [|[|[|[|j']]]]; [| | | |lia]); cbn in Q; try discriminate; injection Q; intros; subst; cbn [opp]; try lia; repeat f_equal; lia.
  - destruct fa as [|[|[|[|fa]]]]; [| | | |lia]; (destruct j as [|j]; [|destruct j; cbn in E; congruence]); (destruct fa' as [|[|[|[|fa']]]]; [| | | |lia]); (destruct j' as [|j']; cbn in Q; try discriminate; try (destruct j'; discriminate)); injection Q; intros; subst; try lia; exfalso; apply N; f_equal; lia.
Qed.

(** ** Search *)
Lemma flat_nil {A B} (f : A -> list B) l : (forall x, In x l -> f x = []) -> flat_map f l = [].
Proof. induction l as [|a l IH]; intros H; cbn; auto. rewrite H by (now left). rewrite IH; auto. intros; apply H; now right. Qed.
Lemma flat_one {A B} (f : A -> list B) l a : NoDup l -> In a l -> (forall x, In x l -> x <> a -> f x = []) -> flat_map f l = f a.
Proof.
  induction l as [|b l IH]; intros N I H; [destruct I|]. inversion N; subst. cbn. destruct I as [->|I].
  - rewrite flat_nil; [apply app_nil_r|]. intros x Hx. apply H; [now right|]. intros ->. auto.
  - rewrite H by (try (now left); intros ->; auto). cbn. apply IH; auto. intros; apply H; auto. now right.
Qed.
Lemma flat_seq {A B} (f : A -> list B) d l : flat_map f l = flat_map (fun j => f (nth j l d)) (seq 0 (length l)).
Proof. induction l as [|a l IH]; cbn; auto. f_equal. rewrite IH, <- seq_shift. rewrite !flat_map_concat_map, map_map. reflexivity. Qed.

Lemma search_ok n k j : 0 < n -> okKind n k -> j < 4 -> edge n k j <> None -> search (map (fcs n) (order n)) (num n k) (fc n k j) = [num n (fst (opp n k j))].
Proof.
  intros N0 K Hj E. destruct (opp_ok n k j K Hj E) as (O1 & O2 & O3 & O4). set (o := fst (opp n k j)) in *. set (l := map (fcs n) (order n)).
  assert (NL : forall c, c < length l -> exists k', c = num n k' /\ okKind n k' /\ nth c l [] = fcs n k').
  { intros c Hc. unfold l in *. rewrite map_length in Hc. destruct (nth_error (order n) c) as [k'|] eqn:Q; [|apply nth_error_None in Q; lia]. exists k'. split; [apply num_unique; auto|]. split; [apply in_order; apply nth_error_In in Q; auto|].
    apply nth_error_nth. rewrite nth_error_map, Q. reflexivity. }
  assert (LO : num n o < length l) by (unfold l; rewrite map_length; apply idx_lt, in_order; auto).
  assert (IN : forall k', okKind n k' -> flat_map (fun f2 => if setEq (fc n k j) f2 then [num n k'] else []) (fcs n k') = flat_map (fun j' => if setEq (fc n k j) (fc n k' j') then [num n k'] else []) (seq 0 4)).
  { intros k' K'. rewrite (flat_seq _ noF). rewrite len_fcs. reflexivity. }
  unfold search. rewrite (flat_one _ _ (num n o)).
  - destruct (Nat.eqb_spec (num n k) (num n o)) as [Q|_]; [apply num_inj in Q; auto; congruence|]. destruct (NL _ LO) as (k' & Q & K' & ->). apply num_inj in Q; auto. subst k'. rewrite IN by auto.
    rewrite (flat_one _ _ (snd (opp n k j))); [|apply seq_NoDup|apply in_seq; lia|].
    + assert (M := edge_match n k j o (snd (opp n k j)) K O1 Hj O2 E). destruct (setEq _ _); auto. exfalso. destruct M as (_ & M). specialize (M (eq_sym O4)). discriminate.
    + intros j' Hj' NE. apply in_seq in Hj'. destruct (setEq (fc n k j) (fc n o j')) eqn:S; auto. apply edge_match in S; auto; [|lia]. assert (U := opp_unique n k j o j' K O1 Hj ltac:(lia) E S O3). rewrite <- U in NE. cbn in NE. congruence.
  - apply seq_NoDup.
  - apply in_seq. lia.
  - intros c Hc NE. apply in_seq in Hc. destruct (Nat.eqb_spec (num n k) c) as [_|NC]; auto. destruct (NL c) as (k' & -> & K' & ->); [lia|]. rewrite IN by auto. apply flat_nil. intros j' Hj'. apply in_seq in Hj'.
    destruct (setEq (fc n k j) (fc n k' j')) eqn:S; auto. apply edge_match in S; auto; [|lia]. assert (KN : k' <> k) by congruence. assert (U := opp_unique n k j k' j' K K' Hj ltac:(lia) E S KN). exfalso. apply NE. unfold o. rewrite <- U. reflexivity.
Qed.

(** row of a sub-cell *)
Definition row (n : nat) (k : kind) : list (option nat) := map (fun j => if edge n k j then Some (num n (fst (opp n k j))) else None) (seq 0 4).
Lemma row_ok n k : 0 < n -> okKind n k -> flat_map (adjOfFace (map (fcs n) (order n)) (num n k)) (fcs n k) = row n k.
Proof.
  intros N0 K. rewrite (flat_seq _ noF), len_fcs. unfold row. rewrite flat_map_concat_map. rewrite (map_ext_in _ (fun j => [if edge n k j then Some (num n (fst (opp n k j))) else None])).
  - reflexivity.
  - intros j Hj. apply in_seq in Hj. fold (fc n k j). assert (A := edge_fc n k j K ltac:(lia)). unfold adjOfFace. destruct (edge n k j) as [((h & x) & y)|] eqn:E.
    + rewrite search_ok by (auto; try lia; congruence). destruct A as [A|A]; rewrite A; reflexivity.
    + rewrite A. reflexivity.
Qed.
Lemma rows_ok deg : let n := nSfs deg in scSfSc deg = (map (row n) (inner_ n), map (row n) (send_ n), map (row n) (recv_ n)).
Proof.
  cbv zeta. set (n := nSfs deg). assert (N0 : 0 < n) by (unfold n, nSfs; lia). unfold scSfSc. rewrite all_faces. fold n. unfold genScSfSc. rewrite <- !map_app. fold (order n).
  assert (T : map (fun c1 => flat_map (adjOfFace (map (fcs n) (order n)) c1) (nth c1 (map (fcs n) (order n)) [])) (seq 0 (length (map (fcs n) (order n)))) = map (row n) (order n)).
  { apply nth_ext with (d := []) (d' := []); [rewrite !map_length, seq_length; auto|]. intros c Hc. rewrite !map_length, seq_length in Hc. destruct (nth_error (order n) c) as [k|] eqn:Q; [|apply nth_error_None in Q; lia].
    assert (K : okKind n k) by (apply in_order; apply nth_error_In in Q; auto).
    rewrite (nth_error_nth (map (row n) (order n)) c [] (x := row n k)) by (rewrite nth_error_map, Q; reflexivity).
    apply nth_error_nth. rewrite nth_map_seq by (rewrite map_length; auto). f_equal. rewrite (nth_error_nth (map (fcs n) (order n)) c [] (x := fcs n k)) by (rewrite nth_error_map, Q; reflexivity). rewrite (num_unique n c k Q). apply row_ok; auto. }
  rewrite T. unfold order. rewrite !map_app, !map_length. f_equal; [f_equal|].
  - rewrite firstn_app, map_length, Nat.sub_diag, firstn_O, app_nil_r. rewrite firstn_all2; auto. rewrite map_length; auto.
  - rewrite skipn_app, map_length, Nat.sub_diag, skipn_all2 by (rewrite map_length; auto). cbn. rewrite firstn_app, map_length, Nat.sub_diag, firstn_O, app_nil_r. rewrite firstn_all2; auto. rewrite map_length; auto.
  - rewrite app_assoc, skipn_app, app_length, !map_length, Nat.sub_diag. rewrite skipn_all2; auto. rewrite app_length, !map_length. auto.
Qed.
