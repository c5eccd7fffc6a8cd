(* The index: neighbours by similarity, and the cores *)
From Verif Require Import Base ListUtil GBModel GBProofs SISpec SIModel.
From Coq Require Import ZArith Permutation Sorted.
Local Open Scope nat_scope.
Unset Strict Implicit.

Lemma bin_search_firstn {A} (R : A -> A -> Prop) (p : A -> bool) l : (forall a b, R a b -> p b = true -> p a = true) -> StronglySorted R l ->
  firstn (bin_search p l) l = filter p l /\ skipn (bin_search p l) l = filter (fun x => negb (p x)) l.
Proof.
  intros Hp. induction 1 as [|x l Hs IH Hf]; simpl; auto. destruct (p x) eqn:E; simpl.
  - destruct IH as [-> ->]. auto.
  - assert (N : forall y, In y l -> p y = false).
    { intros y Hy. rewrite Forall_forall in Hf. destruct (p y) eqn:Ey; auto. rewrite (Hp x y) in E by auto. discriminate. }
    rewrite filter_none by auto. rewrite filter_all by (intros y Hy; now rewrite N). auto.
Qed.
Lemma bin_search_le {A} (p : A -> bool) l : bin_search p l <= length l.
Proof. induction l as [|x l IH]; simpl; auto. destruct (p x); lia. Qed.
Lemma bin_search_len {A} (R : A -> A -> Prop) (p : A -> bool) l : (forall a b, R a b -> p b = true -> p a = true) -> StronglySorted R l ->
  bin_search p l = length (filter p l).
Proof. intros H1 H2. rewrite <- (proj1 (bin_search_firstn H1 H2)), firstn_length, Nat.min_l; auto. apply bin_search_le. Qed.
Lemma bin_search_nth {A} (R : A -> A -> Prop) (p : A -> bool) l : (forall a b, R a b -> p b = true -> p a = true) -> StronglySorted R l ->
  forall k d, k < length l -> p (nth k l d) = (k <? length (filter p l)).
Proof.
  intros H1. induction 1 as [|x l Hs IH Hf]; simpl; intros k d Hk; [lia|]. destruct k as [|k].
  - destruct (p x) eqn:E; simpl; auto. rewrite filter_none; auto. intros y Hy. rewrite Forall_forall in Hf. destruct (p y) eqn:Ey; auto. rewrite (H1 x y) in E by auto. discriminate.
  - destruct (p x) eqn:E; simpl.
    + rewrite IH by lia. reflexivity.
    + rewrite (IH k d) by lia. rewrite !filter_none; auto. intros y Hy. rewrite Forall_forall in Hf. destruct (p y) eqn:Ey; auto. rewrite (H1 x y) in E by auto. discriminate.
Qed.

Lemma all_some_map {A B} (f : A -> option B) (g : A -> B) l : (forall x, In x l -> f x = Some (g x)) -> all_some (map f l) = Some (map g l).
Proof. induction l as [|x l IH]; simpl; intros H; auto. rewrite H, IH by auto. reflexivity. Qed.

Lemma filter_twice {A} (p q : A -> bool) l : filter p (filter q l) = filter (fun x => q x && p x) l.
Proof. induction l as [|x l IH]; simpl; auto. destruct (q x) eqn:E; simpl; [destruct (p x); rewrite IH; auto|auto]. Qed.
(* a sorted list is its blocks of equal keys *)
Lemma sorted_split {A} (key : A -> nat) n l : StronglySorted (fun a b => key a <= key b) l -> (forall x, In x l -> key x < S n) ->
  l = filter (fun x => key x <? n) l ++ filter (fun x => key x =? n) l.
Proof.
  induction 1 as [|x l Hs IH Hf]; simpl; intros Hn; auto. destruct (Nat.ltb_spec (key x) n) as [Hx|Hx].
  - destruct (Nat.eqb_spec (key x) n); [lia|]. simpl. f_equal. auto.
  - assert (Ex : key x = n) by (specialize (Hn x (or_introl eq_refl)); lia). rewrite Ex, Nat.eqb_refl. rewrite Forall_forall in Hf.
    rewrite filter_none by (intros y Hy; apply Nat.ltb_ge; rewrite <- Ex; auto).
    rewrite filter_all; auto. intros y Hy. apply Nat.eqb_eq. specialize (Hn y (or_intror Hy)). specialize (Hf y Hy). lia.
Qed.
Lemma StronglySorted_filter {A} (R : A -> A -> Prop) p l : StronglySorted R l -> StronglySorted R (filter p l).
Proof.
  induction 1 as [|x l Hs IH Hf]; simpl; [constructor|]. destruct (p x); auto. constructor; auto. rewrite Forall_forall in *. intros y Hy. apply filter_In in Hy as [Hy _]. auto.
Qed.
Lemma StronglySorted_weaken {A} (R R' : A -> A -> Prop) l : StronglySorted R l -> (forall a b, In a l -> In b l -> R a b -> R' a b) -> StronglySorted R' l.
Proof.
  induction 1 as [|x l Hs IH Hf]; intros H; [constructor|]. constructor; [apply IH; intros a b Ha Hb; apply H; now right|].
  rewrite Forall_forall in *. intros y Hy. apply H; [now left|now right|auto].
Qed.
Lemma sorted_blocks {A} (key : A -> nat) n : forall l, StronglySorted (fun a b => key a <= key b) l -> (forall x, In x l -> key x < n) ->
  l = concat (map (fun u => filter (fun x => key x =? u) l) (seq 0 n)).
Proof.
  induction n as [|n IH]; intros l Hs Hn.
  - destruct l as [|x l]; auto. specialize (Hn x (or_introl eq_refl)). lia.
  - rewrite seq_S, map_app, concat_app. simpl. rewrite app_nil_r. rewrite (sorted_split Hs Hn) at 1. f_equal.
    rewrite (IH (filter (fun x => key x <? n) l)) at 1.
    + f_equal. apply map_ext_in. intros u Hu. apply in_seq in Hu. rewrite filter_twice. apply filter_ext. intros x. destruct (Nat.eqb_spec (key x) u) as [->|]; [|apply Bool.andb_false_r]. rewrite Bool.andb_true_r. apply Nat.ltb_lt. lia.
    + now apply StronglySorted_filter.
    + intros x Hx. apply filter_In in Hx as [_ Hx]. now apply Nat.ltb_lt.
Qed.

Lemma rows_skip {A} (rows : list (list A)) i : skipn (length (concat (firstn i rows))) (concat rows) = concat (skipn i rows).
Proof. rewrite <- (firstn_skipn i rows) at 2. rewrite concat_app, skipn_app, skipn_all, Nat.sub_diag. reflexivity. Qed.
Lemma rows_at {A} (rows : list (list A)) i : i < length rows -> firstn (length (nth i rows [])) (concat (skipn i rows)) = nth i rows [].
Proof.
  revert i. induction rows as [|r rows IH]; intros [|i] Hi; cbn [length] in Hi; try lia.
  - cbn. rewrite firstn_app, firstn_all, Nat.sub_diag. cbn. now rewrite app_nil_r.
  - cbn [nth skipn]. apply IH. lia.
Qed.
Lemma rows_len {A} (rows : list (list A)) : length (concat rows) = list_sum (map (@length A) rows).
Proof. induction rows as [|r rows IH]; simpl; auto. rewrite app_length, IH. reflexivity. Qed.

Section Index.
  Variable n : nat.
  Variable adj : nat -> list nat.
  Variable sim : nat -> nat -> Z.
  Variable sort_es : list esim -> list esim.
  Variable sort_deg : list (nat * nat) -> list (nat * nat).
  Variable sort_thr : list (nat * Z) -> list (nat * Z).
  Variable sims : list esim.
  Definition edge_sim (u v : nat) : esim := {| source := u; neighbor := v; similarity := sim u v |}.
  Definition all_edges : list esim := flat_map (fun u => map (edge_sim u) (adj u)) (seq 0 n).
  Hypothesis Hes : sorts es_le sort_es.
  Hypothesis Hdeg : sorts deg_le sort_deg.
  Hypothesis Hthr : sorts thr_ge sort_thr.
  Hypothesis Hsims : Permutation all_edges sims.
  Definition sim_ge (a b : esim) : Prop := (similarity b <= similarity a)%Z.
  Definition row (u : nat) : list esim := filter (fun e => source e =? u) (sort_es sims).

  Lemma all_of u k m : filter (fun e => source e =? u) (flat_map (fun u => map (edge_sim u) (adj u)) (seq k m)) = if (k <=? u) && (u <? k + m) then map (edge_sim u) (adj u) else [].
  Proof.
    revert k. induction m as [|m IH]; intros k; cbn [seq flat_map].
    - destruct (Nat.leb_spec k u), (Nat.ltb_spec u (k + 0)); simpl; auto; lia.
    - rewrite filter_app, IH. destruct (Nat.eq_dec k u) as [->|Hk].
      + rewrite filter_all by (intros x Hx; apply in_map_iff in Hx as (v & <- & _); apply Nat.eqb_refl).
        destruct (Nat.leb_spec (S u) u), (Nat.leb_spec u u), (Nat.ltb_spec u (u + S m)); simpl; try lia. apply app_nil_r.
      + rewrite filter_none by (intros x Hx; apply in_map_iff in Hx as (v & <- & _); cbn; now apply Nat.eqb_neq).
        destruct (Nat.leb_spec (S k) u), (Nat.leb_spec k u), (Nat.ltb_spec u (S k + m)), (Nat.ltb_spec u (k + S m)); simpl; auto; lia.
  Qed.
  Lemma row_perm u : u < n -> Permutation (map (edge_sim u) (adj u)) (row u).
  Proof.
    intros Hu. unfold row. destruct (Hes sims) as [Hp _].
    rewrite <- (@perm_filter _ (fun e => source e =? u) _ _ (Permutation_trans Hsims Hp)). unfold all_edges. rewrite all_of.
    destruct (Nat.leb_spec 0 u), (Nat.ltb_spec u (0 + n)); simpl; try lia. reflexivity.
  Qed.
  Lemma row_length u : u < n -> length (row u) = length (adj u).
  Proof. intros Hu. rewrite <- (Permutation_length (row_perm Hu)). apply map_length. Qed.
  Lemma row_sorted u : StronglySorted sim_ge (row u).
  Proof.
    unfold row. destruct (Hes sims) as [_ Hs]. eapply StronglySorted_weaken; [apply StronglySorted_filter; exact Hs|].
    intros a b Ha Hb [H|[_ H]]; [|exact H]. apply filter_In in Ha as [_ Ha], Hb as [_ Hb]. apply Nat.eqb_eq in Ha, Hb. lia.
  Qed.
  Lemma sorted_rows : sort_es sims = concat (map row (seq 0 n)).
  Proof.
    destruct (Hes sims) as [Hp Hs]. apply (@sorted_blocks esim source).
    - eapply StronglySorted_weaken; [exact Hs|]. intros a b _ _ [H|[H _]]; lia.
    - intros x Hx. apply (Permutation_in _ (Permutation_sym (Permutation_trans Hsims Hp))) in Hx. apply in_flat_map in Hx as (u & Hu & Hx). apply in_map_iff in Hx as (v & <- & _). apply in_seq in Hu. cbn. lia.
  Qed.
  Lemma offset_rows i : i <= n -> vertex_offset adj i = length (concat (firstn i (map row (seq 0 n)))).
  Proof.
    intros Hi. rewrite firstn_map, rows_len, map_map. unfold vertex_offset. f_equal.
    assert (E : firstn i (seq 0 n) = seq 0 i) by (replace n with (i + (n - i)) by lia; rewrite seq_app, firstn_app, seq_length, Nat.sub_diag, <- (seq_length i 0) at 1; rewrite firstn_all; simpl; apply app_nil_r).
    rewrite E. apply map_ext_in. intros u Hu. apply in_seq in Hu. symmetry. apply row_length. lia.
  Qed.
  Theorem neighbor_order_ok : neighbor_order n adj sort_es sims = Some (map row (seq 0 n)).
  Proof.
    unfold neighbor_order. apply all_some_map. intros i Hi. apply in_seq in Hi. set (rows := map row (seq 0 n)).
    assert (Lr : length rows = n) by (unfold rows; now rewrite map_length, seq_length).
    assert (Ri : nth i rows [] = row i) by (unfold rows; apply nth_map_seq; lia).
    assert (O1 : vertex_offset adj (i + 1) = vertex_offset adj i + length (row i)).
    { unfold vertex_offset. rewrite Nat.add_1_r, seq_S, map_app, list_sum_app. simpl. rewrite row_length by lia. lia. }
    assert (Ot : vertex_offset adj n = length (sort_es sims)) by (rewrite offset_rows, sorted_rows by auto; fold rows; rewrite firstn_all2 by lia; reflexivity).
    assert (E : (if i + 1 =? n then length (sort_es sims) else vertex_offset adj (i + 1)) = vertex_offset adj (i + 1)) by (destruct (Nat.eqb_spec (i + 1) n) as [->|]; auto).
    rewrite E. unfold cut. rewrite sorted_rows. fold rows.
    assert (B : vertex_offset adj (i + 1) <= length (concat rows)).
    { rewrite offset_rows by lia. fold rows. rewrite <- (firstn_skipn (i + 1) rows) at 2. rewrite concat_app, app_length. lia. }
    destruct (Nat.leb_spec (vertex_offset adj i) (vertex_offset adj (i + 1))); [|lia]. destruct (Nat.leb_spec (vertex_offset adj (i + 1)) (length (concat rows))); [|lia]. cbn [andb].
    f_equal. rewrite (offset_rows (i := i)) at 2 by lia. fold rows. rewrite rows_skip. replace (vertex_offset adj (i + 1) - vertex_offset adj i) with (length (nth i rows [])) by (rewrite Ri; lia). rewrite rows_at by lia. exact Ri.
  Qed.
End Index.

Lemma bin_search_char {A} (p : A -> bool) d l : forall i, i <= length l -> (forall k, k < i -> p (nth k l d) = true) -> (i < length l -> p (nth i l d) = false) -> bin_search p l = i.
Proof.
  induction l as [|x l IH]; intros i Hi H1 H2; simpl in *; [lia|]. destruct i as [|i].
  - rewrite H2 by lia. reflexivity.
  - rewrite (H1 0) by lia. f_equal. apply IH; [lia| |].
    + intros k Hk. apply (H1 (S k)). lia.
    + intros Hk. apply H2. lia.
Qed.
Lemma bin_search_sat {A} (p : A -> bool) d l : (forall k, k < bin_search p l -> p (nth k l d) = true) /\ (bin_search p l < length l -> p (nth (bin_search p l) l d) = false).
Proof.
  induction l as [|x l [IH1 IH2]]; simpl; [split; intros; lia|]. destruct (p x) eqn:E; split; simpl.
  - intros [|k] Hk; auto. apply IH1. lia.
  - intros Hk. apply IH2. lia.
  - intros; lia.
  - auto.
Qed.
Lemma sorted_nth {A} (R : A -> A -> Prop) l d : StronglySorted R l -> forall i j, i < j -> j < length l -> R (nth i l d) (nth j l d).
Proof.
  induction 1 as [|x l Hs IH Hf]; intros i j Hi Hj; simpl in *; [lia|]. destruct j as [|j]; [lia|]. destruct i as [|i].
  - rewrite Forall_forall in Hf. apply Hf, nth_In. lia.
  - apply IH; lia.
Qed.
Lemma firstn_prefix {A} (p q : A -> bool) (l : list A) (R : A -> A -> Prop) : StronglySorted R l -> (forall a b, R a b -> p b = true -> p a = true) -> (forall a, p a = true -> q a = true) ->
  bin_search p l <= bin_search q l.
Proof.
  intros Hs Hp Hq. induction Hs as [|x l Hs IH Hf]; simpl; auto. destruct (p x) eqn:E; [|lia]. rewrite (Hq x E). lia.
Qed.

Lemma core_order_eq sort_deg sort_thr no order junk : core_order sort_deg sort_thr no order junk =
  if length no =? 0 then Some [] else
  match degree_offsets (vertex_degrees sort_deg no) order junk with
  | None => None
  | Some off => all_some (map (get_core_order sort_thr no (vertex_degrees sort_deg no) off) (seq 0 (max_degree (vertex_degrees sort_deg no) + 2)))
  end.
Proof. destruct no; reflexivity. Qed.

Section Cores.
  Variable no : list (list esim).
  Variable sort_deg : list (nat * nat) -> list (nat * nat).
  Variable sort_thr : list (nat * Z) -> list (nat * Z).
  Hypothesis Hno : forall v, v < length no -> StronglySorted sim_ge (nth v no []).
  Hypothesis Hdeg : sorts deg_le sort_deg.
  Hypothesis Hthr : sorts thr_ge sort_thr.
  Let n := length no.
  Definition dg (v : nat) : nat := length (nth v no []).
  Let vd := vertex_degrees sort_deg no.
  Let mxd := max_degree vd.

  Lemma vd_perm : Permutation (map (fun v => (v, dg v)) (seq 0 n)) vd.
  Proof. unfold vd, vertex_degrees. destruct (Hdeg (map (fun v => (v, dg v)) (seq 0 n))) as [H _]. exact H. Qed.
  Lemma vd_length : length vd = n.
  Proof. rewrite <- (Permutation_length vd_perm), map_length, seq_length. reflexivity. Qed.
  Lemma vd_in x : In x vd <-> fst x < n /\ snd x = dg (fst x).
  Proof.
    split.
    - intros H. apply (Permutation_in _ (Permutation_sym vd_perm)) in H. apply in_map_iff in H as (v & <- & Hv). apply in_seq in Hv. cbn. split; [lia|auto].
    - intros [H1 H2]. apply (Permutation_in _ vd_perm). apply in_map_iff. exists (fst x). split; [destruct x; cbn in *; congruence|]. apply in_seq. lia.
  Qed.
  Lemma vd_sorted : StronglySorted deg_le vd.
  Proof. unfold vd, vertex_degrees. apply Hdeg. Qed.
  Lemma deg_mono i j : i <= j -> j < n -> degree_at vd i <= degree_at vd j.
  Proof.
    intros H1 H2. destruct (Nat.eq_dec i j) as [->|]; auto. apply (@sorted_nth _ _ vd (0, 0) vd_sorted); [lia|]. now rewrite vd_length.
  Qed.
  Lemma dg_max v : v < n -> dg v <= mxd.
  Proof.
    intros Hv. assert (H : In (v, dg v) vd) by (apply vd_in; auto). apply (In_nth _ _ (0, 0)) in H as (i & Hi & Ei). rewrite vd_length in Hi.
    replace (dg v) with (degree_at vd i) by (unfold degree_at; now rewrite Ei). unfold mxd, max_degree. rewrite vd_length. apply deg_mono; lia.
  Qed.
  Definition first_ge (j : nat) : nat := bin_search (fun x => snd x <? j) vd.
  Lemma first_ge_char i j : i <= n -> (forall k, k < i -> degree_at vd k < j) -> (i < n -> j <= degree_at vd i) -> first_ge j = i.
  Proof.
    intros H1 H2 H3. unfold first_ge. apply (@bin_search_char _ _ (0, 0)).
    - now rewrite vd_length.
    - intros k Hk. apply Nat.ltb_lt. now apply H2.
    - rewrite vd_length. intros Hk. apply Nat.ltb_ge. now apply H3.
  Qed.
  Lemma store1_ok k x : 0 < n -> In (k, x) (offset_stores1 vd) -> k < mxd + 1 /\ x = first_ge k.
  Proof.
    intros Hn H. apply in_map_iff in H as (j & E & H). injection E as <- <-. apply in_seq in H.
    assert (D : degree_at vd 0 <= mxd) by (unfold mxd, max_degree; rewrite vd_length; apply deg_mono; lia). split; [lia|]. symmetry. apply first_ge_char; [lia|intros; lia|intros; lia].
  Qed.
  Lemma store2_ok k x : 0 < n -> In (k, x) (offset_stores2 vd) -> k < mxd + 1 /\ x = first_ge k.
  Proof.
    intros Hn H. apply in_flat_map in H as (i & Hi & H). rewrite vd_length in Hi. apply in_seq in Hi. cbv zeta in H.
    destruct (negb _); [|destruct H]. apply in_map_iff in H as (j & E & H). injection E as <- <-. apply in_seq in H.
    assert (D : degree_at vd i <= mxd) by (unfold mxd, max_degree; rewrite vd_length; apply deg_mono; lia). split; [lia|]. symmetry. apply first_ge_char; [lia| |intros; lia].
    intros k Hk. assert (degree_at vd k <= degree_at vd (i - 1)) by (apply deg_mono; lia). lia.
  Qed.
  Lemma stores_all k : 0 < n -> k < mxd + 1 -> (exists x, In (k, x) (offset_stores1 vd)) \/ (exists x, In (k, x) (offset_stores2 vd)).
  Proof.
    intros Hn Hk. destruct (Nat.le_gt_cases k (degree_at vd 0)) as [H|H].
    - left. exists 0. apply in_map_iff. exists k. split; auto. apply in_seq. lia.
    - right. exists (first_ge k). apply in_flat_map. exists (first_ge k). destruct (@bin_search_sat _ (fun x => snd x <? k) (0, 0) vd) as [B1 B2]. fold (first_ge k) in B1, B2. rewrite vd_length in B2.
      assert (P0 : 0 < first_ge k) by (destruct (first_ge k) eqn:E; [|lia]; specialize (B2 Hn); apply Nat.ltb_ge in B2; unfold degree_at in H; lia).
      assert (P1 : first_ge k < n).
      { destruct (Nat.lt_ge_cases (first_ge k) n) as [|Hg]; auto. specialize (B1 (n - 1) ltac:(lia)). apply Nat.ltb_lt in B1. unfold mxd, max_degree in Hk. rewrite vd_length in Hk. unfold degree_at in Hk. lia. }
      split; [apply in_seq; rewrite vd_length; lia|]. cbv zeta. specialize (B1 (first_ge k - 1) ltac:(lia)). specialize (B2 P1). apply Nat.ltb_lt in B1. apply Nat.ltb_ge in B2. fold (degree_at vd (first_ge k)) in B2. fold (degree_at vd (first_ge k - 1)) in B1.
      destruct (Nat.eqb_spec (degree_at vd (first_ge k)) (degree_at vd (first_ge k - 1))); [lia|]. cbn [negb]. apply in_map_iff. exists k. split; auto. apply in_seq. lia.
  Qed.
  Lemma degree_offsets_ok order junk : 0 < n -> length junk = mxd + 1 -> Permutation (offset_stores2 vd) order ->
    exists off, degree_offsets vd order junk = Some off /\ length off = mxd + 1 /\ forall k, k < mxd + 1 -> nth_error off k = Some (first_ge k).
  Proof.
    intros Hn Hj Hp. unfold degree_offsets.
    destruct (@run_stores_consistent nat first_ge (mxd + 1) (offset_stores1 vd) junk Hj) as (a & Ea & La & Ha); [intros; now apply store1_ok|]. rewrite Ea.
    destruct (@run_stores_consistent nat first_ge (mxd + 1) order a La) as (b & Eb & Lb & Hb); [intros k x Hx; apply store2_ok; auto; now apply (Permutation_in _ (Permutation_sym Hp))|].
    exists b. split; auto. split; auto. intros k Hk. destruct (Hb k Hk) as [[H _]|[H N]]; auto. rewrite H. destruct (Ha k Hk) as [[H' _]|[H' N']]; auto.
    exfalso. destruct (stores_all Hn Hk) as [(x & Hx)|(x & Hx)]; [now apply (N' x)|]. apply (N x). now apply (Permutation_in _ Hp).
  Qed.

  Definition threshold (mu v : nat) : Z := similarity (nth (mu - 2) (nth v no []) {| source := 0; neighbor := 0; similarity := 0%Z |}).
  Definition thresholds (mu : nat) : list (nat * Z) := map (fun x => (fst x, threshold mu (fst x))) (filter (fun x => mu - 1 <=? snd x) vd).
  Lemma get_core_order_ok order junk off : 0 < n -> length junk = mxd + 1 -> Permutation (offset_stores2 vd) order -> degree_offsets vd order junk = Some off ->
    forall mu, mu < mxd + 2 -> get_core_order sort_thr no vd off mu = Some (if mu <=? 1 then [] else sort_thr (thresholds mu)).
  Proof.
    intros Hn Hj Hp Ho mu Hmu. unfold get_core_order. destruct (Nat.leb_spec mu 1) as [|H1]; auto.
    destruct (@degree_offsets_ok order junk Hn Hj Hp) as (off' & Eo & Lo & No). assert (off' = off) by congruence. subst off'. rewrite No by lia.
    unfold cut. assert (Hle : first_ge (mu - 1) <= length vd) by apply bin_search_le. rewrite (proj2 (Nat.leb_le _ _) Hle), Nat.leb_refl. cbn [andb].
    rewrite firstn_all2 by (rewrite skipn_length; lia).
    assert (Es : skipn (first_ge (mu - 1)) vd = filter (fun x => mu - 1 <=? snd x) vd).
    { unfold first_ge. rewrite (proj2 (@bin_search_firstn _ deg_le (fun x => snd x <? mu - 1) vd (ltac:(intros a b Hab Hb; apply Nat.ltb_lt; apply Nat.ltb_lt in Hb; unfold deg_le in Hab; lia)) vd_sorted)).
      apply filter_ext. intros x. destruct (Nat.ltb_spec (snd x) (mu - 1)), (Nat.leb_spec (mu - 1) (snd x)); auto; lia. }
    rewrite Es. rewrite (@all_some_map _ _ (core_threshold no mu) (fun x => (fst x, threshold mu (fst x)))); [reflexivity|].
    intros x Hx. apply filter_In in Hx as [Hx Hd]. apply vd_in in Hx as [Hx1 Hx2]. apply Nat.leb_le in Hd. unfold core_threshold, threshold.
    rewrite (nth_error_nth' no [] Hx1). rewrite Hx2 in Hd. unfold dg in Hd. rewrite (nth_error_nth' (nth (fst x) no []) {| source := 0; neighbor := 0; similarity := 0%Z |}) by lia. reflexivity.
  Qed.
  Definition cores_by_mu : list (list (nat * Z)) := if n =? 0 then [] else map (fun mu => if mu <=? 1 then [] else sort_thr (thresholds mu)) (seq 0 (mxd + 2)).
  Theorem core_order_ok order junk : (0 < n -> length junk = mxd + 1) -> (0 < n -> Permutation (offset_stores2 vd) order) ->
    core_order sort_deg sort_thr no order junk = Some cores_by_mu.
  Proof.
    intros Hj Hp. rewrite core_order_eq. unfold cores_by_mu. fold n. destruct (Nat.eqb_spec n 0) as [|Hz]; [reflexivity|].
    assert (Hn : 0 < n) by lia. specialize (Hj Hn). specialize (Hp Hn). fold vd.
    destruct (@degree_offsets_ok order junk Hn Hj Hp) as (off & Eo & _). rewrite Eo. apply all_some_map. intros mu Hmu. apply in_seq in Hmu. apply (@get_core_order_ok order junk); auto. fold mxd in Hmu. lia.
  Qed.

  Definition near (eps : Z) (u : nat) : nat := length (filter (fun e => (eps <=? similarity e)%Z) (nth u no [])).
  Lemma sim_mono eps a b : sim_ge a b -> (eps <=? similarity b)%Z = true -> (eps <=? similarity a)%Z = true.
  Proof. unfold sim_ge. intros H1 H2. apply Z.leb_le. apply Z.leb_le in H2. lia. Qed.
  Lemma thr_mono eps a b : thr_ge a b -> (eps <=? snd b)%Z = true -> (eps <=? snd a)%Z = true.
  Proof. unfold thr_ge. intros H1 H2. apply Z.leb_le. apply Z.leb_le in H2. lia. Qed.
  Lemma sorted_thr mu : Permutation (thresholds mu) (sort_thr (thresholds mu)) /\ StronglySorted thr_ge (sort_thr (thresholds mu)).
  Proof. apply Hthr. Qed.
  Lemma near_dg eps u : near eps u <= dg u.
  Proof. apply filter_len_le. Qed.
  Lemma cores_mu mu : 1 < mu -> mu < length cores_by_mu -> 0 < n /\ nth mu cores_by_mu [] = sort_thr (thresholds mu) /\ mu < mxd + 2.
  Proof.
    unfold cores_by_mu. destruct (Nat.eqb_spec n 0) as [|Hn]; [simpl; lia|]. rewrite map_length, seq_length. intros H1 H2. split; [lia|]. split; auto.
    rewrite nth_map_seq by lia. destruct (Nat.leb_spec mu 1); auto; lia.
  Qed.
  Theorem get_cores_ok mu eps : NoDup (get_cores n cores_by_mu mu eps) /\ forall u, In u (get_cores n cores_by_mu mu eps) <-> u < n /\ mu <= 1 + near eps u.
  Proof.
    unfold get_cores. destruct (Nat.leb_spec mu 1) as [H1|H1].
    - split; [apply seq_NoDup|]. intros u. rewrite in_seq. lia.
    - destruct (Nat.leb_spec (length cores_by_mu) mu) as [H2|H2].
      + split; [constructor|]. intros u. split; [intros []|]. intros [Hu Hm]. pose proof (near_dg eps u). pose proof (dg_max Hu). unfold cores_by_mu in H2. destruct (Nat.eqb_spec n 0); [lia|]. rewrite map_length, seq_length in H2. lia.
      + destruct (cores_mu H1 H2) as (Hn & -> & Hm). destruct (sorted_thr mu) as [Hp Hs]. rewrite (proj1 (bin_search_firstn (@thr_mono eps) Hs)).
        assert (Nd : NoDup (map fst (thresholds mu))).
        { unfold thresholds. rewrite map_map. cbn. apply NoDup_map_inv with (f := fun v => (v, dg v)). rewrite map_map.
          erewrite map_ext_in with (g := fun x => x); [|intros x Hx; apply filter_In in Hx as [Hx _]; apply vd_in in Hx as [_ Hx]; destruct x; cbn in *; congruence]. rewrite map_id. apply NoDup_filter'.
          eapply Permutation_NoDup; [exact vd_perm|]. apply FinFun.Injective_map_NoDup; [intros a b E; congruence|apply seq_NoDup]. }
        split.
        * assert (Nd' : NoDup (map fst (sort_thr (thresholds mu)))) by (eapply Permutation_NoDup; [apply Permutation_map; exact Hp|exact Nd]).
          clear - Nd'. induction (sort_thr (thresholds mu)) as [|x l IH]; simpl in *; [constructor|]. inversion Nd' as [|? ? Hx Hl]. subst. destruct (eps <=? snd x)%Z; simpl; auto. constructor; auto.
          intros H. apply Hx. apply in_map_iff in H as (y & Ey & Hy). apply in_map_iff. exists y. apply filter_In in Hy as [Hy _]. auto.
        * intros u. rewrite in_map_iff. split.
          -- intros (x & <- & Hx). apply filter_In in Hx as [Hx He]. apply (Permutation_in _ (Permutation_sym Hp)) in Hx. apply in_map_iff in Hx as (y & <- & Hy). apply filter_In in Hy as [Hy Hd]. apply vd_in in Hy as [Hy1 Hy2]. apply Nat.leb_le in Hd. rewrite Hy2 in Hd. cbn [fst snd] in *.
             split; auto. unfold threshold in He. rewrite (bin_search_nth (p := fun e => (eps <=? similarity e)%Z) (@sim_mono eps) (Hno Hy1)) in He by (unfold dg in Hd; lia). apply Nat.ltb_lt in He. unfold near. lia.
          -- intros [Hu Hm']. exists (u, threshold mu u). split; auto. apply filter_In. pose proof (near_dg eps u). split.
             ++ apply (Permutation_in _ Hp). apply in_map_iff. exists (u, dg u). split; auto. apply filter_In. split; [apply vd_in; auto|]. cbn. apply Nat.leb_le. lia.
             ++ cbn [snd]. unfold threshold. rewrite (bin_search_nth (p := fun e => (eps <=? similarity e)%Z) (@sim_mono eps) (Hno Hu)) by (unfold dg in *; lia). apply Nat.ltb_lt. unfold near in Hm'. lia.
  Qed.
  (* the cores for a larger epsilon are a prefix *)
  Theorem get_cores_prefix mu eps eps' : (eps' <= eps)%Z -> exists k, get_cores n cores_by_mu mu eps = firstn k (get_cores n cores_by_mu mu eps').
  Proof.
    intros He. unfold get_cores. destruct (Nat.leb_spec mu 1) as [H1|H1]; [exists n; rewrite firstn_all2; auto; rewrite seq_length; auto|].
    destruct (Nat.leb_spec (length cores_by_mu) mu) as [H2|H2]; [exists 0; reflexivity|].
    destruct (cores_mu H1 H2) as (Hn & -> & Hm). destruct (sorted_thr mu) as [_ Hs]. set (l := sort_thr (thresholds mu)) in *.
    exists (bin_search (fun x => (eps <=? snd x)%Z) l). rewrite firstn_map, firstn_firstn. rewrite Nat.min_l; auto.
    eapply firstn_prefix; [exact Hs|apply thr_mono|]. intros a Ha. apply Z.leb_le. apply Z.leb_le in Ha. lia.
  Qed.
  Lemma similar_firstn eps u : u < n -> firstn (similar_count no eps u) (neighbors_of no u) = filter (fun e => (eps <=? similarity e)%Z) (neighbors_of no u).
  Proof. intros Hu. exact (proj1 (bin_search_firstn (@sim_mono eps) (Hno Hu))). Qed.
End Cores.
