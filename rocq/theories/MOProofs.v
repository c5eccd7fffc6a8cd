(* C73: CollectReduce and modularity. *)
From Verif Require Import Base ListUtil SIModel CUSpec CUModel CUProofs MOSpec MOModel.
From Coq Require Import QArith Qcanon Sorted.
Local Open Scope nat_scope.
Unset Strict Implicit.

(* ---------------------------------------------------------------- CollectReduce *)
Section Collect.
  Variables A V : Type.
  Variable sq : list A.
  Variable get_key : A -> nat.
  Variable get_value : A -> V.
  Variables (op : V -> V -> V) (identity : V).
  Variable num_keys : nat.
  Variable bucketed : list nat.
  Hypothesis op_comm : forall a b, op a b = op b a.
  Hypothesis op_assoc : forall a b c, op a (op b c) = op (op a b) c.
  Hypothesis keys : forall a, In a sq -> get_key a < num_keys.
  Notation key := (index_to_key sq get_key num_keys).
  Hypothesis perm : Permutation (seq 0 (length sq)) bucketed.
  Hypothesis sorted : StronglySorted (fun i j => key i <= key j) bucketed.

  Lemma sorted_split (l : list nat) k : StronglySorted (fun i j => key i <= key j) l ->
    l = filter (fun i => key i <? k) l ++ filter (fun i => key i =? k) l ++ filter (fun i => k <? key i) l.
  Proof.
    induction 1 as [|x l Hs IH Hx]; auto. cbn [filter].
    assert (E : forall p, (forall y, In y l -> p y = false) -> filter p l = []) by (intros; now apply filter_none). rewrite Forall_forall in Hx.
    destruct (Nat.lt_trichotomy (key x) k) as [Q|[Q|Q]].
    - rewrite (proj2 (Nat.ltb_lt _ _) Q), (proj2 (Nat.eqb_neq _ _)), (proj2 (Nat.ltb_ge _ _)) by lia. cbn [app]. now f_equal.
    - rewrite (proj2 (Nat.ltb_ge (key x) k)), (proj2 (Nat.eqb_eq _ _) Q), (proj2 (Nat.ltb_ge k _)) by lia. rewrite (E (fun i => key i <? k)) in IH |- * by (intros y Hy; specialize (Hx y Hy); apply Nat.ltb_ge; lia). cbn [app] in *. now f_equal.
    - rewrite (proj2 (Nat.ltb_ge (key x) k)), (proj2 (Nat.eqb_neq _ _)), (proj2 (Nat.ltb_lt _ _)) by lia. rewrite (E (fun i => key i <? k)) in IH |- * by (intros y Hy; specialize (Hx y Hy); apply Nat.ltb_ge; lia). rewrite (E (fun i => key i =? k)) in IH |- * by (intros y Hy; specialize (Hx y Hy); apply Nat.eqb_neq; lia). cbn [app] in *. now f_equal.
  Qed.
  Lemma count_below (l : list nat) k : length (filter (fun i => key i <? k) l) = list_sum (map (fun j => length (filter (fun i => key i =? j) l)) (seq 0 k)).
  Proof.
    induction k as [|k IH]; [cbn [seq map list_sum fold_right]; now rewrite filter_none by auto|]. rewrite seq_S, map_app, list_sum_app, <- IH. cbn [map list_sum fold_right plus].
    clear IH. induction l as [|x l IH]; auto. cbn [filter]. destruct (Nat.ltb_spec (key x) (S k)), (Nat.ltb_spec (key x) k), (Nat.eqb_spec (key x) k); cbn [length]; try lia.
  Qed.
  Lemma fold_perm (l l' : list V) : Permutation l l' -> fold_right op identity l = fold_right op identity l'.
  Proof. induction 1; cbn [fold_right]; try congruence. all: now rewrite !op_assoc, (op_comm x). Qed.
  Lemma slice_map (B : Type) (f : nat -> B) l a b : a + b <= length l -> map (fun j => f (nth (a + j) l 0)) (seq 0 b) = map f (firstn b (skipn a l)).
  Proof.
    intros H. apply list_ext_nth_error. intros i. rewrite !nth_error_map. destruct (Nat.lt_ge_cases i b) as [Hi|Hi].
    - rewrite (nth_error_nth' (seq 0 b) 0) by now rewrite seq_length. rewrite seq_nth by auto. cbn [option_map plus]. rewrite nth_error_firstn' by auto. rewrite nth_error_skipn'. rewrite (nth_error_nth' l 0) by lia. reflexivity.
    - rewrite (proj2 (nth_error_None _ _)) by now rewrite seq_length. rewrite (proj2 (nth_error_None _ _)); auto. rewrite firstn_length. lia.
  Qed.
  Lemma collect_ok k : k < num_keys -> nth k (collect_reduce sq get_key get_value op identity num_keys bucketed) identity = reduced op identity get_key get_value sq k.
  Proof.
    intros Hk. unfold collect_reduce, reduced. destruct (Nat.eqb_spec (length sq) 0) as [E|E].
    { destruct sq; [|discriminate]. cbn [filter map fold_right]. destruct (nth_in_or_default k (repeat identity num_keys) identity) as [H|H]; auto. now apply repeat_spec in H. }
    set (counts := get_counts _ _ _ _). assert (Lc : length counts = num_keys) by (unfold counts, get_counts; now rewrite map_length, seq_length).
    rewrite nth_map_seq by auto. cbn zeta.
    assert (Off : forall j, j < num_keys -> nth j (scan_exclusive counts) 0 = length (filter (fun i => key i <? j) bucketed)).
    { intros j Hj. rewrite count_below. assert (Hjc : j < length counts) by lia. rewrite (nth_error_nth _ _ 0 (@nth_scan counts j Hjc)). f_equal. unfold counts, get_counts. rewrite firstn_map. f_equal.
      rewrite <- (firstn_skipn j (seq 0 num_keys)) at 1. pose proof (@seq_app j (num_keys - j) 0) as X. replace (j + (num_keys - j)) with num_keys in X by lia. rewrite X. rewrite firstn_skipn, firstn_app, seq_length, Nat.sub_diag. rewrite firstn_all2 by now rewrite seq_length. cbn [firstn]. now rewrite app_nil_r. }
    assert (Ls : length (scan_exclusive counts) = num_keys) by (unfold scan_exclusive; now rewrite map_length, seq_length).
    pose proof (sorted_split k sorted) as Sp. set (lo := filter (fun i => key i <? k) bucketed) in *. set (mid := filter (fun i => key i =? k) bucketed) in *. set (hi := filter (fun i => k <? key i) bucketed) in *.
    assert (En : (if k + 1 =? length (scan_exclusive counts) then length sq else nth (k + 1) (scan_exclusive counts) 0) = length lo + length mid).
    { assert (LB : length bucketed = length sq) by (rewrite <- (Permutation_length perm); apply seq_length).
      assert (Kb : forall i, In i bucketed -> key i < num_keys).
      { intros i Hi. apply (Permutation_in _ (Permutation_sym perm)) in Hi. apply in_seq in Hi. unfold index_to_key. destruct (nth_error sq i) as [a|] eqn:Ea; [eapply keys, nth_error_In, Ea|]. apply nth_error_None in Ea. lia. }
      rewrite Ls. destruct (Nat.eqb_spec (k + 1) num_keys) as [Q|Q].
      - assert (hi = []) as Z. { apply filter_none. intros y Hy. specialize (Kb y Hy). apply Nat.ltb_ge. lia. }
        rewrite <- LB. rewrite Sp at 1. rewrite Z, app_nil_r, app_length. reflexivity.
      - rewrite Off by lia. rewrite Sp at 1. rewrite !filter_app, !app_length. rewrite (@filter_all _ _ lo), (@filter_all _ _ mid), (@filter_none _ _ hi); [cbn [length]; lia| | |]; intros y Hy; apply filter_In in Hy as [_ Hy]; try (apply Nat.ltb_lt in Hy); try (apply Nat.eqb_eq in Hy); try (apply Nat.ltb_lt; lia); apply Nat.ltb_ge; lia. }
    rewrite En, Off by auto. fold lo. replace (length lo + length mid - length lo) with (length mid) by lia.
    rewrite slice_map; [|rewrite Sp at 1; rewrite !app_length; lia]. rewrite Sp at 1. rewrite skipn_app, skipn_all, Nat.sub_diag. cbn [app skipn]. rewrite firstn_app, firstn_all, Nat.sub_diag. cbn [firstn]. rewrite app_nil_r.
    apply fold_perm. unfold mid. etransitivity; [apply Permutation_map, perm_filter, Permutation_sym, perm|].
    assert (G : forall (l : list A) a, (forall i, i < length l -> nth_error sq (a + i) = nth_error l i) ->
      map (index_to_value sq get_value identity) (filter (fun i => key i =? k) (seq a (length l))) = map get_value (filter (fun x => get_key x =? k) l)).
    { induction l as [|x l IH]; intros a H; auto. cbn [length seq filter]. assert (Ex : nth_error sq a = Some x) by (specialize (H 0); rewrite Nat.add_0_r in H; apply H; cbn [length]; lia).
      assert (R : map (index_to_value sq get_value identity) (filter (fun i => key i =? k) (seq (S a) (length l))) = map get_value (filter (fun x => get_key x =? k) l)).
      { apply IH. intros i Hi. change (nth_error l i) with (nth_error (x :: l) (S i)). rewrite <- (H (S i)) by (cbn [length]; lia). f_equal. lia. }
      assert (Ek : key a = get_key x) by (unfold index_to_key; now rewrite Ex). rewrite Ek. destruct (get_key x =? k); cbn [map]; [|exact R]. rewrite R. f_equal. unfold index_to_value. now rewrite Ex. }
    rewrite G by auto. reflexivity.
  Qed.
End Collect.

(* ---------------------------------------------------------------- sums *)
Section Sums.
  Local Open Scope Qc_scope.
  Lemma qsum_app l l' : qsum (l ++ l') = qsum l + qsum l'.
  Proof. induction l as [|x l IH]; [change (qsum l' = 0 + qsum l'); ring|]. change (x + qsum (l ++ l') = x + qsum l + qsum l'). rewrite IH. ring. Qed.
  Lemma qsum_cons x l : qsum (x :: l) = x + qsum l.
  Proof. reflexivity. Qed.
  Lemma qsum_map_ext (A : Type) (f g : A -> Qc) l : (forall x, In x l -> f x = g x) -> qsum (map f l) = qsum (map g l).
  Proof. intros H. f_equal. now apply map_ext_in. Qed.
  Lemma qsum_map_add (A : Type) (f g : A -> Qc) l : qsum (map (fun x => f x + g x) l) = qsum (map f l) + qsum (map g l).
  Proof. induction l as [|x l IH]; cbn [map]; [change (qsum []) with 0; ring|]. rewrite !qsum_cons, IH. ring. Qed.
  Lemma qsum_map_sub (A : Type) (f g : A -> Qc) l : qsum (map (fun x => f x - g x) l) = qsum (map f l) - qsum (map g l).
  Proof. induction l as [|x l IH]; cbn [map]; [change (qsum []) with 0; ring|]. rewrite !qsum_cons, IH. ring. Qed.
  Lemma qsum_scale (A : Type) (f : A -> Qc) c l : qsum (map (fun x => c * f x) l) = c * qsum (map f l).
  Proof. induction l as [|x l IH]; cbn [map]; [change (qsum []) with 0; ring|]. rewrite !qsum_cons, IH. ring. Qed.
  Lemma qsum_zero (A : Type) (f : A -> Qc) l : (forall x, In x l -> f x = 0) -> qsum (map f l) = 0.
  Proof. induction l as [|x l IH]; intros H; cbn [map]; auto. rewrite qsum_cons, (H x (or_introl eq_refl)), IH by (intros y Hy; apply H; now right). ring. Qed.
  Lemma qsum_filter (A : Type) (f : A -> Qc) (p : A -> bool) l : qsum (map f (filter p l)) = qsum (map (fun x => if p x then f x else 0) l).
  Proof. induction l as [|x l IH]; auto. cbn [filter map]. rewrite qsum_cons, <- IH. destruct (p x); cbn [map]; [now rewrite qsum_cons|ring]. Qed.
  Lemma qsum_single (f : nat -> Qc) u a n : (a <= u < a + n)%nat -> qsum (map (fun v => if (u =? v)%nat then f v else 0) (seq a n)) = f u.
  Proof.
    revert a. induction n as [|n IH]; intros a H; [lia|]. cbn [seq map]. rewrite qsum_cons. destruct (Nat.eqb_spec u a) as [->|Hne].
    - rewrite qsum_zero; [ring|]. intros v Hv. apply in_seq in Hv. destruct (Nat.eqb_spec a v); [lia|auto].
    - rewrite IH by lia. ring.
  Qed.
  (* entries grouped by their target *)
  Lemma qsum_by_target (p : nat -> bool) n (l : list (nat * Qc)) : (forall e, In e l -> (fst e < n)%nat) ->
    qsum (map (fun e => if p (fst e) then snd e else 0) l) = qsum (map (fun v => if p v then qsum (map snd (filter (fun e => (fst e =? v)%nat) l)) else 0) (seq 0 n)).
  Proof.
    induction l as [|[t w] l IH]; intros H.
    - cbn [map filter]. symmetry. apply qsum_zero. intros v _. destruct (p v); auto.
    - cbn [map fst snd]. rewrite qsum_cons, IH by (intros e He; apply H; now right). rewrite <- (@qsum_single (fun v => if p v then w else 0) t 0 n) by (specialize (H (t, w) (or_introl eq_refl)); cbn [fst] in H; lia).
      rewrite <- qsum_map_add. apply qsum_map_ext. intros v _. cbn [filter fst]. destruct (t =? v)%nat; destruct (p v); cbn [map snd]; try rewrite qsum_cons; ring.
  Qed.
  (* members grouped by their key *)
  Lemma qsum_by_key (A : Type) (f : A -> Qc) (key : A -> nat) K l : (forall x, In x l -> (key x < K)%nat) ->
    qsum (map f l) = qsum (map (fun k => qsum (map f (filter (fun x => (key x =? k)%nat) l))) (seq 0 K)).
  Proof.
    induction l as [|x l IH]; intros H.
    - symmetry. apply qsum_zero. auto.
    - cbn [map]. rewrite qsum_cons, IH by (intros y Hy; apply H; now right). rewrite <- (@qsum_single (fun _ => f x) (key x) 0 K) by (specialize (H x (or_introl eq_refl)); lia).
      rewrite <- qsum_map_add. apply qsum_map_ext. intros k _. cbn [filter]. destruct (key x =? k)%nat; cbn [map]; try rewrite qsum_cons; ring.
  Qed.
End Sums.

(* ---------------------------------------------------------------- modularity *)
Lemma sorted_weaken (R R' : nat -> nat -> Prop) l : (forall x y, In x l -> In y l -> R x y -> R' x y) -> StronglySorted R l -> StronglySorted R' l.
Proof.
  intros H S. induction S as [|x l S IH Hx]; constructor.
  - apply IH. intros a b Ha Hb. apply H; now right.
  - rewrite Forall_forall in *. intros y Hy. apply H; [now left|now right|auto].
Qed.
Lemma collect_sorts (A V : Type) (sq : list A) get_key (get_value : A -> V) op identity num_keys order k :
  (forall a b, op a b = op b a) -> (forall a b c, op a (op b c) = op (op a b) c) -> (forall a, In a sq -> get_key a < num_keys) -> sorts (map get_key sq) order -> k < num_keys ->
  nth k (collect_reduce sq get_key get_value op identity num_keys order) identity = reduced op identity get_key get_value sq k.
Proof.
  intros C1 C2 K [P S] Hk. rewrite map_length in P. apply collect_ok; auto. revert S. apply sorted_weaken. intros x y Hx Hy.
  assert (G : forall z, In z order -> nth z (map get_key sq) 0 = index_to_key sq get_key num_keys z).
  { intros z Hz. apply (Permutation_in _ (Permutation_sym P)) in Hz. apply in_seq in Hz. unfold index_to_key. destruct (nth_error sq z) as [a|] eqn:E; [|apply nth_error_None in E; lia].
    apply nth_error_nth. rewrite nth_error_map, E. reflexivity. }
  now rewrite !G by auto.
Qed.

Section Mod.
  Variable mx : nat.
  Variable cl : list nat.
  Notation n := (length cl).
  Notation cluster v := (nth v cl mx).
  Definition loose := filter (fun v => cluster v =? mx) (seq 0 n).
  Definition placed := filter (fun v => negb (cluster v =? mx)) (seq 0 n).
  Lemma flags_seq : clustered_flags mx cl = map (fun v => negb (cluster v =? mx)) (seq 0 n).
  Proof. unfold clustered_flags. rewrite <- (map_nth_seq cl mx) at 1. now rewrite map_map. Qed.
  Lemma split_ok (B : Type) (f : nat -> B) : split_two (map f (seq 0 n)) (clustered_flags mx cl) = (map f loose ++ map f placed, length loose).
  Proof.
    rewrite flags_seq. unfold split_two, loose, placed. f_equal; [f_equal|].
    - induction (seq 0 n) as [|x l IH]; auto. cbn [map combine filter snd]. destruct (cluster x =? mx); cbn [negb map fst]; congruence.
    - induction (seq 0 n) as [|x l IH]; auto. cbn [map combine filter snd]. destruct (cluster x =? mx); cbn [negb map fst]; congruence.
    - induction (seq 0 n) as [|x l IH]; auto. cbn [map filter]. destruct (cluster x =? mx); cbn [negb length]; congruence.
  Qed.
  Lemma cut_ok (B : Type) (f : nat -> B) : skipn (length loose) (map f loose ++ map f placed) = map f placed.
  Proof. rewrite skipn_app, skipn_all2 by (rewrite map_length; lia). rewrite map_length, Nat.sub_diag. reflexivity. Qed.
  Lemma loose_ok (B C : Type) (f : nat -> B) (h : B -> C) d : map (fun i => h (nth i (map f loose ++ map f placed) d)) (seq 0 (length loose)) = map (fun v => h (f v)) loose.
  Proof.
    rewrite <- map_map. rewrite <- (map_map f h). f_equal. transitivity (map (fun i => nth i (map f loose) d) (seq 0 (length (map f loose)))); [|apply map_nth_seq]. rewrite (map_length f loose). apply map_ext_in. intros i Hi. apply in_seq in Hi. now rewrite app_nth1 by (rewrite map_length; lia).
  Qed.
  Lemma below_clusters v : v < n -> cluster v <> mx -> cluster v < num_clusters mx cl.
  Proof.
    intros Hv Hne. unfold num_clusters. set (h := fun c => if c =? mx then 0 else c + 1).
    assert (G : h (cluster v) <= list_max (map h cl)).
    { assert (F := proj1 (list_max_le (map h cl) (list_max (map h cl))) (le_n _)). rewrite Forall_forall in F. apply F. apply in_map. now apply nth_In. }
    unfold h in G at 1. destruct (Nat.eqb_spec (cluster v) mx); [tauto|lia].
  Qed.

  Variable g : wgraph.
  Hypothesis inside : forall u e, u < n -> In e (g u) -> fst e < n.
  Notation m := (wtotal n g).
  Notation d := (wdeg n g).
  Lemma wdeg_sum u : u < n -> qsum (map snd (g u)) = d u.
  Proof.
    intros Hu. unfold wdeg. pose proof (@qsum_by_target (fun _ => true) n (g u) (fun e => inside Hu)) as H. cbn beta iota in H. exact H.
  Qed.
  Definition part (c : nat) : Qc := qsum (map d (filter (fun v => cluster v =? c) placed)).
  Definition null_of : Qc := (qsum (map (fun c => square (part c / m)) (seq 0 (num_clusters mx cl))) + qsum (map (fun v => square (d v / m)) loose))%Qc.
  Definition intra_of (v : nat) : Qc := if cluster v =? mx then 0%Qc else qsum (map (fun w => if cluster w =? cluster v then wt g v w else 0%Qc) (seq 0 n)).

  Lemma placed_filter c : c <> mx -> filter (fun v => cluster v =? c) placed = filter (fun v => cluster v =? c) (seq 0 n).
  Proof.
    intros Hc. unfold placed. induction (seq 0 n) as [|x l IH]; auto. cbn [filter]. destruct (Nat.eqb_spec (cluster x) mx) as [E|E]; cbn [negb filter].
    - rewrite IH. destruct (Nat.eqb_spec (cluster x) c); [congruence|auto].
    - rewrite IH. reflexivity.
  Qed.
  Lemma spec_split : (forall u, u < n -> cluster u = mx -> wt g u u = 0%Qc) -> m <> 0%Qc ->
    modularity_of mx cl g = (qsum (map intra_of (seq 0 n)) / m - null_of)%Qc.
  Proof.
    intros Loops Hm. unfold modularity_of. cbn zeta.
    set (dd := fun u => (d u / m)%Qc).
    assert (Row : forall u, In u (seq 0 n) ->
      qsum (map (fun v => if together mx cl u v then (wt g u v / m - d u / m * (d v / m))%Qc else 0%Qc) (seq 0 n)) =
      (/ m * intra_of u - (if cluster u =? mx then square (dd u) else dd u * (/ m * part (cluster u))))%Qc).
    { intros u Hu. apply in_seq in Hu. unfold intra_of. destruct (Nat.eqb_spec (cluster u) mx) as [E|E].
      - rewrite (@qsum_map_ext _ _ (fun v => if u =? v then (wt g u v / m - d u / m * (d v / m))%Qc else 0%Qc)); [|intros v _; unfold together; rewrite (proj2 (Nat.eqb_eq (cluster u) mx) E); cbn [negb]; now rewrite andb_false_r, orb_false_r].
        rewrite qsum_single by lia. rewrite Loops by (lia || auto). unfold square, dd, Qcdiv. ring.
      - rewrite <- !qsum_scale. unfold part. rewrite <- !qsum_scale. rewrite placed_filter by auto. rewrite qsum_filter. rewrite <- qsum_map_sub. apply qsum_map_ext. intros v Hv. unfold together.
        rewrite (proj2 (Nat.eqb_neq _ _) E). cbn [negb]. rewrite andb_true_r. rewrite (Nat.eqb_sym (cluster v)). destruct (Nat.eqb_spec u v) as [->|_].
        + rewrite Nat.eqb_refl. cbn [orb]. unfold dd, Qcdiv. ring.
        + cbn [orb]. destruct (cluster u =? cluster v); unfold dd, Qcdiv; ring. }
    rewrite (qsum_map_ext Row). rewrite qsum_map_sub, qsum_scale. unfold null_of.
    assert (E : qsum (map (fun u => if cluster u =? mx then square (dd u) else (dd u * (/ m * part (cluster u)))%Qc) (seq 0 n)) =
      (qsum (map (fun c => square (part c / m)) (seq 0 (num_clusters mx cl))) + qsum (map (fun v => square (d v / m)) loose))%Qc).
    { rewrite (@qsum_map_ext _ _ (fun u => (if negb (cluster u =? mx) then dd u * (/ m * part (cluster u)) else 0) + (if cluster u =? mx then square (dd u) else 0))%Qc) by (intros u _; destruct (cluster u =? mx); cbn [negb]; ring).
      rewrite qsum_map_add. rewrite <- !qsum_filter. fold loose placed. f_equal.
      rewrite (@qsum_by_key _ _ (fun u => cluster u) (num_clusters mx cl) placed) by (intros u Hu; apply filter_In in Hu as [Hu Hn]; apply in_seq in Hu; apply below_clusters; [lia|]; now destruct (Nat.eqb_spec (cluster u) mx)).
      apply qsum_map_ext. intros c _. rewrite (@qsum_map_ext _ _ (fun u => (/ m * part c * / m) * d u)%Qc).
      - rewrite qsum_scale. fold (part c). unfold square, Qcdiv. ring.
      - intros u Hu. apply filter_In in Hu as [_ Hu]. apply Nat.eqb_eq in Hu. rewrite Hu. unfold dd, Qcdiv. ring. }
    rewrite E. unfold Qcdiv. ring.
  Qed.
  Lemma intra_ok v : v < n -> (if cluster v =? mx then 0%Qc else qsum (map (fun e => if cluster (fst e) =? cluster v then snd e else 0%Qc) (g v))) = intra_of v.
  Proof.
    intros Hv. unfold intra_of. destruct (cluster v =? mx); auto. exact (@qsum_by_target (fun w => cluster w =? cluster v) n (g v) (fun e => inside Hv)).
  Qed.
  Variable sort : list (nat * Qc) -> list nat.
  Hypothesis sort_ok : forall l, sorts (map fst l) (sort l).
  Lemma total_ok : qsum (map (fun i => qsum (map snd (g i))) (seq 0 n)) = m.
  Proof. apply qsum_map_ext. intros u Hu. apply in_seq in Hu. apply wdeg_sum. lia. Qed.
  Lemma weighted_value : m <> 0%Qc -> modularity_weighted mx cl sort g = Some (qsum (map intra_of (seq 0 n)) / m - null_of)%Qc.
  Proof.
    intros Hm. unfold modularity_weighted. cbn zeta. destruct (Nat.eqb_spec (list_sum (map (fun v => length (g v)) (seq 0 n))) 0) as [Z|_].
    { exfalso. apply Hm. rewrite <- total_ok. apply qsum_zero. intros u Hu. destruct (g u) as [|e l] eqn:E; auto. exfalso.
      assert (X : forall l, In u l -> 0 < list_sum (map (fun v => length (g v)) l)).
      { induction l0 as [|a l0 IH]; [intros []|]. intros [->|H]; cbn [map]; change (list_sum (?x :: ?y)) with (x + list_sum y). - rewrite E. cbn [length]. lia. - specialize (IH H). lia. }
      specialize (X _ Hu). lia. }
    rewrite total_ok. destruct (Qc_eq_dec m 0) as [|_]; [tauto|]. rewrite split_ok, cut_ok. f_equal. f_equal; [|f_equal].
    - f_equal. apply qsum_map_ext. intros v Hv. apply in_seq in Hv. apply intra_ok. lia.
    - unfold null_of. f_equal.
      + apply qsum_map_ext. intros c Hc. apply in_seq in Hc. f_equal. f_equal. rewrite collect_sorts; auto; [|intros; ring|intros; ring| |lia].
        * unfold reduced, part. change (fold_right Qcplus 0%Qc) with qsum. rewrite !qsum_filter, map_map. apply qsum_map_ext. intros v Hv. cbn [fst snd]. destruct (cluster v =? c); auto. apply filter_In in Hv as [Hv _]. apply in_seq in Hv. rewrite nth_map_seq by lia. apply wdeg_sum. lia.
        * intros a Ha. apply in_map_iff in Ha as (v & <- & Hv). cbn [fst]. apply filter_In in Hv as [Hv Hn]. apply in_seq in Hv. apply below_clusters; [lia|]. now destruct (Nat.eqb_spec (cluster v) mx).
      + rewrite (@loose_ok _ _ (fun i => (cluster i, nth i (map (fun i => qsum (map snd (g i))) (seq 0 n)) 0%Qc)) (fun p => square (snd p / m)%Qc)). cbn [snd]. apply qsum_map_ext. intros v Hv. apply filter_In in Hv as [Hv _]. apply in_seq in Hv. rewrite nth_map_seq by lia. now rewrite wdeg_sum by lia.
  Qed.
  Lemma weighted_ok : (forall u, u < n -> cluster u = mx -> wt g u u = 0%Qc) -> m <> 0%Qc -> modularity_weighted mx cl sort g = Some (modularity_of mx cl g).
  Proof. intros Loops Hm. rewrite spec_split by auto. now apply weighted_value. Qed.

  (* ---- bounds *)
  Local Open Scope Qc_scope.
  Lemma qsum_nonneg (l : list Qc) : (forall x, In x l -> 0 <= x) -> 0 <= qsum l.
  Proof.
    induction l as [|x l IH]; intros H; [apply Qcle_refl|]. rewrite qsum_cons. replace 0 with (0 + 0) by ring. apply Qcplus_le_compat; [apply H; now left|apply IH; intros y Hy; apply H; now right].
  Qed.
  Lemma qsum_map_le (A : Type) (f h : A -> Qc) l : (forall x, In x l -> f x <= h x) -> qsum (map f l) <= qsum (map h l).
  Proof.
    induction l as [|x l IH]; intros H; [apply Qcle_refl|]. cbn [map]. rewrite !qsum_cons. apply Qcplus_le_compat; [apply H; now left|apply IH; intros y Hy; apply H; now right].
  Qed.
  Lemma square_nonneg x : 0 <= square x.
  Proof.
    unfold square. destruct (Qclt_le_dec x 0) as [H|H].
    - replace (x * x) with ((- x) * (- x)) by ring. assert (0 <= - x) by (replace 0 with (- 0) by ring; apply Qcopp_le_compat; now apply Qclt_le_weak). replace 0 with (0 * (- x)) by ring. now apply Qcmult_le_compat_r.
    - replace 0 with (0 * x) by ring. now apply Qcmult_le_compat_r.
  Qed.
  Lemma inv_nonneg x : 0 <= x -> 0 <= / x.
  Proof.
    intros H. unfold Qcle in *. cbn [this Q2Qc Qcinv]. unfold Qcinv, Q2Qc. cbn [this]. rewrite !Qred_correct. unfold Qle, Qinv in *. destruct x as [[a b] E]. cbn in *. destruct a; cbn; lia.
  Qed.
  Hypothesis nonneg : forall u e, (u < n)%nat -> In e (g u) -> 0 <= snd e.
  Lemma wt_nonneg u v : (u < n)%nat -> 0 <= wt g u v.
  Proof. intros Hu. apply qsum_nonneg. intros x Hx. apply in_map_iff in Hx as (e & <- & He). apply filter_In in He as [He _]. eauto. Qed.
  Lemma wdeg_nonneg u : (u < n)%nat -> 0 <= d u.
  Proof. intros Hu. apply qsum_nonneg. intros x Hx. apply in_map_iff in Hx as (v & <- & _). now apply wt_nonneg. Qed.
  Lemma value_le : m <> 0 -> qsum (map intra_of (seq 0 n)) / m - null_of <= 1.
  Proof.
    intros Hm. assert (M0 : 0 <= m) by (apply qsum_nonneg; intros x Hx; apply in_map_iff in Hx as (v & <- & Hv); apply in_seq in Hv; apply wdeg_nonneg; lia).
    assert (I : qsum (map intra_of (seq 0 n)) <= m).
    { apply qsum_map_le. intros u Hu. apply in_seq in Hu. unfold intra_of, wdeg. destruct (cluster u =? mx)%nat; [apply wdeg_nonneg; lia|]. apply qsum_map_le. intros v _. destruct (cluster v =? cluster u)%nat; [apply Qcle_refl|apply wt_nonneg; lia]. }
    assert (N : 0 <= null_of).
    { unfold null_of. replace 0 with (0 + 0) by ring. apply Qcplus_le_compat; apply qsum_nonneg; intros x Hx; apply in_map_iff in Hx as (v & <- & _); apply square_nonneg. }
    replace 1 with (m / m - 0) by (field; auto). unfold Qcminus. apply Qcplus_le_compat; [|now apply Qcopp_le_compat]. unfold Qcdiv. apply Qcmult_le_compat_r; auto. now apply inv_nonneg.
  Qed.
End Mod.

(* ---- unweighted graphs *)
Section Unit.
  Local Open Scope Qc_scope.
  Lemma qn_add a b : qn (a + b) = qn a + qn b.
  Proof. unfold qn. apply Qc_is_canon. unfold Qcplus, Q2Qc. cbn [this]. rewrite !Qred_correct. rewrite Nat2Z.inj_add. rewrite inject_Z_plus. reflexivity. Qed.
  Lemma qn_0 : qn 0 = 0.
  Proof. reflexivity. Qed.
  Lemma qn_1 : qn 1 = 1.
  Proof. reflexivity. Qed.
  Lemma qn_nonzero k : k <> 0%nat -> qn k <> 0.
  Proof.
    intros H E. apply H. assert (X : (this (qn k) == 0)%Q) by now rewrite E. unfold qn, Q2Qc in X. cbn [this] in X. rewrite Qred_correct in X. unfold Qeq, inject_Z in X. cbn [Qnum Qden] in X. lia.
  Qed.
  Lemma qn_sum (A : Type) (f : A -> nat) l : qn (list_sum (map f l)) = qsum (map (fun x => qn (f x)) l).
  Proof. induction l as [|x l IH]; auto. cbn [map]. rewrite qsum_cons, <- IH. change (list_sum (f x :: map f l)) with (f x + list_sum (map f l))%nat. apply qn_add. Qed.
  Lemma qn_fold (A : Type) (f : A -> nat) l : qn (fold_right Nat.add 0%nat (map f l)) = qsum (map (fun x => qn (f x)) l).
  Proof. apply qn_sum. Qed.
  Lemma qn_count (A : Type) (p : A -> bool) l : qn (length (filter p l)) = qsum (map (fun x => if p x then 1 else 0) l).
  Proof.
    induction l as [|x l IH]; auto. cbn [filter map]. rewrite qsum_cons, <- IH. destruct (p x); cbn [length]; [|ring]. change (S (length (filter p l))) with (1 + length (filter p l))%nat. now rewrite qn_add, qn_1.
  Qed.
  Lemma qn_length (A : Type) (l : list A) : qn (length l) = qsum (map (fun _ => 1) l).
  Proof. rewrite <- (qn_count (fun _ : A => true)). now rewrite filter_all. Qed.
End Unit.

Section Unweighted.
  Variable mx : nat.
  Variable cl : list nat.
  Notation n := (length cl).
  Notation cluster v := (nth v cl mx).
  Variable adj : nat -> list nat.
  Hypothesis inside : forall u v, u < n -> In v (adj u) -> v < n.
  Notation g := (unit_weights adj).
  Lemma unit_inside u e : u < n -> In e (g u) -> fst e < n.
  Proof. intros Hu He. unfold unit_weights in He. apply in_map_iff in He as (v & <- & Hv). eauto. Qed.
  Lemma unit_deg u : u < n -> wdeg n g u = qn (length (adj u)).
  Proof. intros Hu. rewrite <- (wdeg_sum unit_inside Hu). unfold unit_weights. rewrite map_map. cbn [snd]. now rewrite qn_length. Qed.
  Lemma unit_total : wtotal n g = qn (list_sum (map (fun v => length (adj v)) (seq 0 n))).
  Proof. rewrite qn_sum. unfold wtotal. apply qsum_map_ext. intros u Hu. apply in_seq in Hu. apply unit_deg. lia. Qed.
  Variable sort : list (nat * nat) -> list nat.
  Hypothesis sort_ok : forall l, sorts (map fst l) (sort l).
  Lemma unweighted_value : list_sum (map (fun v => length (adj v)) (seq 0 n)) <> 0 ->
    modularity_unweighted mx cl sort adj = (qsum (map (intra_of mx cl g) (seq 0 n)) / wtotal n g - null_of mx cl g)%Qc.
  Proof.
    intros Hm. unfold modularity_unweighted. cbn zeta. rewrite (proj2 (Nat.eqb_neq _ _) Hm). rewrite split_ok, cut_ok, <- unit_total. f_equal; [|f_equal].
    - f_equal. rewrite qn_sum. apply qsum_map_ext. intros v Hv. apply in_seq in Hv. rewrite <- (@intra_ok mx cl g unit_inside v) by lia. destruct (cluster v =? mx); [apply qn_0|]. rewrite qn_count. unfold unit_weights. rewrite map_map. reflexivity.
    - unfold null_of. f_equal.
      + apply qsum_map_ext. intros c Hc. apply in_seq in Hc. f_equal. f_equal. rewrite collect_sorts; auto; [|intros; lia|intros; lia| |lia].
        * unfold reduced, part. rewrite qn_fold. rewrite !qsum_filter, map_map. apply qsum_map_ext. intros v Hv. cbn [fst snd]. destruct (cluster v =? c); auto. apply filter_In in Hv as [Hv _]. apply in_seq in Hv. symmetry. apply unit_deg. lia.
        * intros a Ha. apply in_map_iff in Ha as (v & <- & Hv). cbn [fst]. apply filter_In in Hv as [Hv Hn]. apply in_seq in Hv. apply below_clusters; [lia|]. now destruct (Nat.eqb_spec (cluster v) mx).
      + rewrite (@loose_ok mx cl _ _ (fun i => (cluster i, length (adj i))) (fun p => square (qn (snd p) / wtotal n g)%Qc)). cbn [snd]. apply qsum_map_ext. intros v Hv. apply filter_In in Hv as [Hv _]. apply in_seq in Hv. now rewrite unit_deg by lia.
  Qed.
End Unweighted.
