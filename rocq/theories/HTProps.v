(* C28-C30 and C50: hash tables. *)
From Coq Require Import Permutation.
From Verif Require Import Base ListUtil HTModel HTSpec HTProofs HTFull.

(* C28.  sparse_table::insert, any number of concurrent callers, any earlier phases, any
   hash function, any interleaving. *)
Theorem C28_insert : forall (V : Type) (hash : nat -> nat) (e0 : V) m t calls sched, 0 < m ->
  reached hash e0 (fun _ v => v) None m t ->
  distinct (keys_of t ++ map fst calls) <= m ->
  let s := exec e0 (fun _ v => v) None calls sched (start hash t calls) in
  (* wait-free *)
  (forall i, i < length calls -> 3 * m + 2 <= steps sched i -> exists r, returned s i r) /\
  (finished s ->
    NoDup (keys_of (tab s)) /\
    (forall k, In k (keys_of (tab s)) <-> In k (keys_of t) \/ In k (map fst calls)) /\
    (* keys that were there keep their value, and nobody is told they are new *)
    (forall k, In k (keys_of t) -> lookup (entries (tab s)) k = lookup (entries t) k /\
       forall i v, nth_error calls i = Some (k, v) -> returned s i false) /\
    (* of the inserters of a new key exactly one is told so, and its value is stored *)
    (forall k, ~ In k (keys_of t) -> In k (map fst calls) ->
       exists i v, nth_error calls i = Some (k, v) /\ returned s i true /\ lookup (entries (tab s)) k = Some v /\
         forall j v', nth_error calls j = Some (k, v') -> j <> i -> returned s j false)).
Proof.
  intros V hash e0 m t calls sched Hm Hr Hd s. destruct (reached_ok Hm Hr) as [W C]. split.
  - intros i Hi Hs. exact (wait_free _ _ Hm W _ Hd _ Hi Hs).
  - intros Hfin. pose proof (HIs Hm Hr calls Hd sched) as HI. fold s in HI.
    split; [exact (wf_keys_NoDup Hm (I_wf HI))|]. split; [exact (fin_keys W HI Hfin)|]. split.
    + intros k Hk. split; [|intros i v E; exact (fin_present HI Hfin i E Hk)].
      pose proof (final_lookup Hm Hr calls Hd sched Hfin k (or_introl Hk)) as E. fold s in E.
      rewrite (insert_log_old k HI Hfin W Hk) in E. simpl in E. rewrite E.
      destruct (lookup (entries t) k) eqn:El; auto. now apply lookup_None in El.
    + intros k Hk Hc. destruct (fin_winner W HI Hfin k Hc Hk) as (i & v & E1 & R & Hoth).
      exists i, v. split; auto. split; auto. split; auto.
      pose proof (final_lookup Hm Hr calls Hd sched Hfin k (or_intror Hc)) as E. fold s in E.
      rewrite (@insert_log_new _ hash e0 m t calls s k i HI (ex_intro _ v E1) R Hoth) in E. simpl in E.
      unfold updates in E. simpl in E. rewrite E1 in E. exact E.
Qed.

(* find and contains on such a table (whatever kind of insertion filled it) *)
Theorem C28_find : forall (V : Type) (hash : nat -> nat) (e0 : V) on_new on_old m t k fuel default, 0 < m ->
  reached hash e0 on_new on_old m t ->
  distinct (keys_of t) < m \/ In k (keys_of t) ->
  m <= fuel ->
  find hash e0 t k fuel default = Some (match lookup (entries t) k with Some v => v | None => default end) /\
  contains hash e0 t k fuel = Some (if in_dec Nat.eq_dec k (keys_of t) then true else false).
Proof.
  intros V hash e0 on_new on_old m t k fuel default Hm Hr Hd Hf. destruct (reached_ok Hm Hr) as [W C].
  destruct (find_total Hm W _ Hd) as (r & E & Hspec). apply (@find_loop_mono _ e0 t k _ _ _ _ Hf) in E.
  unfold find, contains. rewrite E. simpl. destruct r as [v|].
  - rewrite (proj2 (@lookup_In _ _ _ _ (wf_keys_NoDup Hm W)) Hspec). split; auto.
    destruct (in_dec Nat.eq_dec k (keys_of t)) as [|N]; auto. destruct N. change k with (fst (k, v)). now apply in_map.
  - rewrite (proj2 (lookup_None _ _) Hspec). split; auto. destruct (in_dec Nat.eq_dec k (keys_of t)); tauto.
Qed.

(* the constructor leaves a free cell for every declared capacity cap; x is the truncated
   product of the space multiplier (>= 1) and cap *)
Theorem C28_capacity : forall cap x l, cap <= x -> distinct l <= cap -> distinct l < sparse_table_size x.
Proof. intros cap x l H1 H2. pose proof (sparse_table_size_gt x). lia. Qed.

(* with more distinct keys than cells, some insertion does not return, under any schedule *)
Theorem C28_overfull : forall (V : Type) (hash : nat -> nat) (e0 : V) on_new on_old m t calls sched, 0 < m ->
  length t = m -> m < distinct (map fst calls) ->
  ~ finished (exec e0 on_new on_old calls sched (start hash t calls)).
Proof.
  intros V hash e0 on_new on_old m t calls sched Hm Ht Hd Hf.
  pose proof (@finished_fits V hash e0 on_new on_old m Hm calls t sched Ht Hf). lia.
Qed.
Print Assumptions C28_overfull.
Example C28_overfull_example : 2 < distinct (map fst [(5, tt); (7, tt); (5, tt); (9, tt)]) /\ length (new_table tt 2) = 2.
Proof. split; [vm_compute; lia|reflexivity]. Qed.

(* insert_f with an atomic f: exactly one inserter of a new key is told so and the value is the
   result of applying everybody's f once, in some order, to the previous value *)
Theorem C28_insert_f : forall (V : Type) (hash : nat -> nat) (e0 : V) (f : V -> V -> V) m t calls sched, 0 < m ->
  reached hash e0 f (Some f) m t ->
  distinct (keys_of t ++ map fst calls) <= m ->
  let s := exec e0 f (Some f) calls sched (start hash t calls) in
  (forall i, i < length calls -> 3 * m + 2 <= steps sched i -> exists r, returned s i r) /\
  (finished s ->
    NoDup (keys_of (tab s)) /\
    (forall k, In k (keys_of (tab s)) <-> In k (keys_of t) \/ In k (map fst calls)) /\
    (forall k i v, In k (keys_of t) -> nth_error calls i = Some (k, v) -> returned s i false) /\
    (forall k, ~ In k (keys_of t) -> In k (map fst calls) ->
       exists i v, nth_error calls i = Some (k, v) /\ returned s i true /\
         forall j v', nth_error calls j = Some (k, v') -> j <> i -> returned s j false) /\
    (forall k, In k (keys_of (tab s)) ->
       exists order, Permutation order (map snd (with_key fst k calls)) /\
         lookup (entries (tab s)) k =
           Some (fold_left f order (match lookup (entries t) k with Some v => v | None => e0 end)))).
Proof.
  intros V hash e0 f m t calls sched Hm Hr Hd s. destruct (reached_ok Hm Hr) as [W C]. split.
  - intros i Hi Hs. exact (wait_free _ _ Hm W _ Hd _ Hi Hs).
  - intros Hfin. pose proof (HIs Hm Hr calls Hd sched) as HI. fold s in HI.
    split; [exact (wf_keys_NoDup Hm (I_wf HI))|]. split; [exact (fin_keys W HI Hfin)|].
    split; [intros k i v Hk E; exact (fin_present HI Hfin i E Hk)|].
    split; [intros k Hk Hc; exact (fin_winner W HI Hfin k Hc Hk)|].
    intros k Hk. apply (fin_keys W HI Hfin) in Hk.
    pose proof (final_lookup Hm Hr calls Hd sched Hfin k Hk) as E. fold s in E.
    exists (map (fun e => nth (fst e) (map snd calls) e0) (klog calls s k)).
    split; [exact (perm_values k HI Hfin)|]. rewrite E. f_equal.
    assert (Hin : forall e, In e (klog calls s k) -> exists v, nth_error calls (fst e) = Some (k, v)).
    { intros [i b] H. apply (klog_In HI) in H as (v & H & _). eauto. }
    revert Hin. generalize (match lookup (entries t) k with Some v => v | None => e0 end).
    generalize (klog calls s k). induction l as [|[i b] l IH]; intros x Hin; simpl; auto.
    rewrite IH by (intros; apply Hin; now right). f_equal. unfold updates. simpl.
    destruct (Hin (i, b) (or_introl eq_refl)) as (v & Ei). simpl in Ei. rewrite Ei.
    rewrite (@nth_error_nth _ (map snd calls) i v) by now rewrite nth_error_map, Ei. simpl. now destruct b.
Qed.

Example C28_nonvacuous :
  let s := exec 0 (fun _ v => v) None [(5, 10); (5, 20); (9, 30)] [0;1;2;1;0;1;0;2;0;2;2;2;2;2;2;2;2] (start (fun _ => 1) (new_table 0 4) [(5, 10); (5, 20); (9, 30)]) in
  distinct (keys_of (new_table 0 4) ++ map fst [(5, 10); (5, 20); (9, 30)]) <= 4 /\
  pcs s = [Done false; Done true; Done true] /\ entries (tab s) = [(5, 20); (9, 30)] /\
  contains (fun _ => 1) 0 (tab s) 7 4 = Some false.
Proof. vm_compute. repeat split; try lia. Qed.

(* C29.  sparse_additive_map: sums (of w-bit counters, W = 2^w), under every interleaving *)
Theorem C29_sums : forall (hash : nat -> nat) W m t calls sched k, 0 < m -> 0 < W ->
  let add := fun x y => (x + y) mod W in
  reached hash 0 add (Some add) m t ->
  distinct (keys_of t ++ map fst calls) <= m ->
  let s := exec 0 add (Some add) calls sched (start hash t calls) in
  finished s -> In k (keys_of (tab s)) ->
  exists v, lookup (entries (tab s)) k = Some v /\
    v mod W = ((match lookup (entries t) k with Some v0 => v0 | None => 0 end) + list_sum (map snd (with_key fst k calls))) mod W.
Proof.
  intros hash W m t calls sched k Hm HW add Hr Hd s Hfin Hk.
  destruct (C28_insert_f _ sched Hm Hr Hd) as [_ H]. destruct (H Hfin) as (_ & _ & _ & _ & Hv).
  destruct (Hv k Hk) as (order & Hp & E). eexists. split; [exact E|]. unfold add. rewrite fold_add_mod by auto.
  now rewrite (perm_list_sum Hp).
Qed.

(* declared capacities other than 1, 2, 4 and 8: a lookup always ends (with the right answer,
   by C28_find) *)
Theorem C29_lookup_ends : forall d l, 1 <= d -> ~ In d [1; 2; 4; 8] -> distinct l <= d -> distinct l < additive_map_size d.
Proof. intros d l H1 H2 H3. destruct (additive_map_size_cases H1) as [[_ H]|[H _]]; [tauto|lia]. Qed.

(* capacities 1, 2, 4 and 8: once as many keys as declared are stored, looking up an absent key
   never ends, whatever the hash function *)
Theorem C29_lookup_diverges_refuted : forall (hash : nat -> nat) on_new on_old d t k fuel, In d [1; 2; 4; 8] ->
  reached hash 0 on_new on_old (additive_map_size d) t ->
  distinct (keys_of t) = d -> ~ In k (keys_of t) ->
  contains hash 0 t k fuel = None.
Proof.
  intros hash on_new on_old d t k fuel Hin Hr Hd Hk.
  assert (Es : additive_map_size d = d) by (destruct (@additive_map_size_cases d) as [[H _]|[_ H]]; auto; [|tauto]; simpl in Hin; lia).
  rewrite Es in Hr. assert (Hm : 0 < d) by (simpl in Hin; lia). destruct (reached_ok Hm Hr) as [W C].
  unfold contains. rewrite (find_diverges Hm W); auto.
  - intros h Hh E. assert (Hf : length (entries t) < length t).
    { rewrite (proj1 W). clear -E Hh W. destruct W as [L _]. revert h d L Hh E. induction t as [|[o v] t IH]; intros h d L Hh E; simpl in *; [lia|].
      assert (Hle : forall u : table nat, length (entries u) <= length u).
      { induction u as [|[[x|] y] u IHu]; simpl; auto; lia. }
      destruct h as [|h].
      - unfold tkey in E. simpl in E. subst o. simpl. specialize (Hle t). lia.
      - destruct d as [|d]; [lia|]. specialize (IH h d ltac:(lia) ltac:(lia) E). destruct o; simpl; lia. }
    assert (Hd' : distinct (keys_of t) <= length (keys_of t)).
    { unfold distinct. apply NoDup_incl_length; [apply NoDup_nodup|]. intros x Hx. now apply nodup_In in Hx. }
    unfold keys_of in Hd' at 2. rewrite map_length, (proj1 W) in *. lia.
  - unfold firstIndex. rewrite (proj1 W). apply Nat.mod_upper_bound. lia.
Qed.
(* such tables are reached *)
Example C29_full : exists t, reached (fun k => k) 0 Nat.add (Some Nat.add) (additive_map_size 2) t /\ distinct (keys_of t) = 2 /\ ~ In 7 (keys_of t).
Proof.
  assert (H : finished (exec 0 Nat.add (Some Nat.add) [(4, 1); (5, 1)] [0;0;0;1;1;1] (start (fun k => k) (new_table 0 2) [(4, 1); (5, 1)]))).
  { intros [|[|[|i]]] p E; vm_compute in E; try discriminate; injection E as <-; eauto. }
  eexists. split; [eapply reached_phase with (calls := [(4, 1); (5, 1)]); [apply reached_new|vm_compute; lia|exact H]|].
  split; [reflexivity|]. vm_compute. intuition discriminate.
Qed.

(* C30.  sequentialHT: counting *)
Theorem C30_counts : forall (hash : nat -> nat) m l, 0 < m -> distinct l <= m ->
  exists t, insert_all (insertAdd_key hash) l (new_table 0 m) = Some t /\
    Permutation (entries t) (map (fun k => (k, count_occ Nat.eq_dec l k)) (nodup Nat.eq_dec l)).
Proof.
  intros hash m l Hm Hd.
  destruct (@insert_all_ok _ hash 0 m Hm nat (fun _ _ => 1) (fun _ c => c + 1) (fun k => k) l (new_table 0 m)
              (new_wf hash 0 m) (@new_clean _ 0 m)) as (t & E & W & C & L).
  { etransitivity; [|exact Hd]. apply distinct_incl. intros y Hy. apply in_app_or in Hy as [Hy|Hy].
    - exfalso. apply (keys_In 0) in Hy as (h & _ & Hy). unfold tkey, new_table in Hy. rewrite nth_repeat in Hy. discriminate.
    - now rewrite map_id in Hy. }
  exists t. split; [exact E|]. apply lookup_perm.
  - apply (wf_keys_NoDup Hm W).
  - rewrite map_map. simpl. rewrite map_id. apply NoDup_nodup.
  - intros k. rewrite L. assert (lookup (entries (new_table 0 m)) k = None) as ->.
    { apply lookup_None. intros Hy. apply (keys_In 0) in Hy as (h & _ & Hy). unfold tkey, new_table in Hy. rewrite nth_repeat in Hy. discriminate. }
    assert (Hstep : forall l c, fold_left (fun o _ => Some match o with Some v => v + 1 | None => 1 end) l (Some c) = Some (c + @length nat l)).
    { induction l0 as [|x l0 IH]; intros c; simpl; [now rewrite Nat.add_0_r|]. rewrite IH. f_equal. lia. }
    assert (Hc : forall l, length (with_key (fun k => k) k l) = count_occ Nat.eq_dec l k).
    { unfold with_key. induction l0 as [|x l0 IH]; simpl; auto. destruct (Nat.eqb_spec x k) as [->|N].
      - destruct (Nat.eq_dec k k); [|congruence]. simpl. now rewrite IH.
      - destruct (Nat.eq_dec x k); [congruence|]. exact IH. }
    destruct (with_key (fun k => k) k l) as [|x w] eqn:Ew.
    + simpl. symmetry. apply lookup_None. rewrite map_map. simpl. rewrite map_id, nodup_In.
      intros Hin. apply (count_occ_In Nat.eq_dec) in Hin. rewrite <- Hc, Ew in Hin. simpl in Hin. lia.
    + simpl. rewrite Hstep. symmetry. apply lookup_In; [rewrite map_map; simpl; rewrite map_id; apply NoDup_nodup|].
      apply in_map_iff. exists k. split.
      * f_equal. rewrite <- Hc, Ew. reflexivity.
      * apply nodup_In. apply (count_occ_In Nat.eq_dec). rewrite <- Hc, Ew. simpl. lia.
Qed.

Definition first_plus (l : list nat) : option nat := match l with [] => None | _ :: l' => Some (1 + list_sum l') end.
(* key/value pairs: the first value of each key is replaced by 1 *)
Theorem C30_pairs : forall (hash : nat -> nat) m (l : list (nat * nat)), 0 < m -> distinct (map fst l) <= m ->
  exists t, insert_all (insertAdd_pair hash) l (new_table 0 m) = Some t /\ NoDup (keys_of t) /\
    forall k, lookup (entries t) k = first_plus (map snd (with_key fst k l)).
Proof.
  intros hash m l Hm Hd.
  assert (Hempty : forall k, ~ In k (keys_of (new_table 0 m))).
  { intros k Hy. apply (keys_In 0) in Hy as (h & _ & Hy). unfold tkey, new_table in Hy. rewrite nth_repeat in Hy. discriminate. }
  destruct (@insert_all_ok _ hash 0 m Hm (nat * nat) (fun _ _ => 1) (fun kv c => c + snd kv) fst l (new_table 0 m)
              (new_wf hash 0 m) (@new_clean _ 0 m)) as (t & E & W & C & L).
  { etransitivity; [|exact Hd]. apply distinct_incl. intros y Hy. apply in_app_or in Hy as [Hy|Hy]; auto. now destruct (Hempty y). }
  exists t. split; [exact E|]. split; [exact (wf_keys_NoDup Hm W)|]. intros k. rewrite L.
  rewrite (proj2 (lookup_None _ _) (Hempty k)).
  destruct (with_key fst k l) as [|x w]; simpl; auto.
  assert (Hstep : forall (l : list (nat * nat)) c, fold_left (fun o kv => Some match o with Some v => v + snd kv | None => 1 end) l (Some c) = Some (c + list_sum (map snd l))).
  { induction l0 as [|y l0 IH]; intros c; simpl; [now rewrite Nat.add_0_r|]. rewrite IH. f_equal. lia. }
  rewrite Hstep. reflexivity.
Qed.
Theorem C30_pairs_sum_refuted : exists l t, insert_all (insertAdd_pair (fun k => k)) l (new_table 0 4) = Some t /\
  lookup (entries t) 2 = Some 6 /\ list_sum (map snd (with_key fst 2 l)) = 10.
Proof. exists [(2, 5); (3, 1); (2, 5)]. eexists. vm_compute. repeat split. Qed.

(* insertF folds f over the insertions of each key, starting from the empty value *)
Theorem C30_insertF : forall (V M : Type) (hash : nat -> nat) (e0 : V) (f : V -> nat * M -> V) m l, 0 < m -> distinct (map fst l) <= m ->
  exists t, insert_all (insertF hash e0 f) l (new_table e0 m) = Some t /\ NoDup (keys_of t) /\
    forall k, lookup (entries t) k = match with_key fst k l with [] => None | w => Some (fold_left f w e0) end.
Proof.
  intros V M hash e0 f m l Hm Hd.
  assert (Hempty : forall k, ~ In k (keys_of (new_table e0 m))).
  { intros k Hy. apply (keys_In e0) in Hy as (h & _ & Hy). unfold tkey, new_table in Hy. rewrite nth_repeat in Hy. discriminate. }
  destruct (@insert_all_ok _ hash e0 m Hm (nat * M) (fun kv c => f c kv) (fun kv c => f c kv) fst l (new_table e0 m)
              (new_wf hash e0 m) (@new_clean _ e0 m)) as (t & E & W & C & L).
  { etransitivity; [|exact Hd]. apply distinct_incl. intros y Hy. apply in_app_or in Hy as [Hy|Hy]; auto. now destruct (Hempty y). }
  exists t. split; [exact E|]. split; [exact (wf_keys_NoDup Hm W)|]. intros k. rewrite L.
  rewrite (proj2 (lookup_None _ _) (Hempty k)).
  destruct (with_key fst k l) as [|x w]; simpl; auto.
  assert (Hstep : forall (l : list (nat * M)) c, fold_left (fun o kv => Some match o with Some v => f v kv | None => f e0 kv end) l (Some c) = Some (fold_left f l c)).
  { induction l0 as [|y l0 IH]; intros c; simpl; auto. }
  now rewrite Hstep.
Qed.

(* compaction hands every entry to f exactly once, in table order, and empties the table *)
Theorem C30_compact : forall (hash : nat -> nat) m l t E (f : nat * nat -> option E) (g : nat * nat -> option (nat * nat)),
  0 < m -> distinct l <= m -> insert_all (insertAdd_key hash) l (new_table 0 m) = Some t ->
  compactInto 0 f t = (new_table 0 m, outputs f (entries t)) /\
  compactIntoSelf 0 g t =
    (cells (outputs g (entries t)) ++ new_table 0 (m - length (outputs g (entries t))), length (outputs g (entries t))).
Proof.
  intros hash m l t E f g Hm Hd Ht.
  destruct (@insert_all_ok _ hash 0 m Hm nat (fun _ _ => 1) (fun _ c => c + 1) (fun k => k) l (new_table 0 m)
              (new_wf hash 0 m) (@new_clean _ 0 m)) as (t' & E' & W & C & _).
  { etransitivity; [|exact Hd]. apply distinct_incl. intros y Hy. apply in_app_or in Hy as [Hy|Hy].
    - exfalso. apply (keys_In 0) in Hy as (h & _ & Hy). unfold tkey, new_table in Hy. rewrite nth_repeat in Hy. discriminate.
    - now rewrite map_id in Hy. }
  assert (t' = t) as -> by (unfold insertAdd_key in Ht; congruence). rewrite <- (proj1 W). split.
  - now apply compactInto_ok.
  - rewrite (compactIntoSelf_ok g C). reflexivity.
Qed.
Example C30_nonvacuous : exists t, insert_all (insertAdd_key (fun _ => 3)) [7;7;2;7;9] (new_table 0 4) = Some t /\
  entries t = [(2, 1); (9, 1); (7, 3)] /\
  snd (compactInto 0 (fun kv => if snd kv =? 1 then None else Some (fst kv)) t) = [7].
Proof. eexists. vm_compute. repeat split. Qed.

(* C50.  resize: the entries of the old table are inserted concurrently into the new one *)
Theorem C50_resize : forall (V : Type) (hash : nat -> nat) (e0 : V) m t incoming sched, 0 < m ->
  reached hash e0 (fun _ v => v) None m t ->
  let m' := resized m incoming in
  let s := exec e0 (fun _ v => v) None (entries t) sched (start hash (new_table e0 m') (entries t)) in
  m < m' /\
  (forall i, i < length (entries t) -> 3 * m' + 2 <= steps sched i -> exists r, returned s i r) /\
  (finished s -> Permutation (entries (tab s)) (entries t) /\ length (tab s) = m' /\ reached hash e0 (fun _ v => v) None m' (tab s)).
Proof.
  intros V hash e0 m t incoming sched Hm Hr m' s. destruct (reached_ok Hm Hr) as [W C].
  assert (Hm' : m < m').
  { unfold m', resized. destruct (Nat.eq_dec (2 * (m + incoming)) 1); [lia|]. pose proof (Nat.log2_up_spec (2 * (m + incoming)) ltac:(lia)). lia. }
  assert (Hempty : forall k, ~ In k (keys_of (new_table e0 m'))).
  { intros k Hy. apply (keys_In e0) in Hy as (h & _ & Hy). unfold tkey, new_table in Hy. rewrite nth_repeat in Hy. discriminate. }
  assert (Hd : distinct (keys_of (new_table e0 m') ++ map fst (entries t)) <= m').
  { assert (Hle : length (keys_of t) <= length t).
    { unfold keys_of. rewrite map_length. clear. induction t as [|[[k|] v] t IH]; simpl; auto; lia. }
    assert (distinct (keys_of (new_table e0 m') ++ map fst (entries t)) <= length (keys_of t)).
    { unfold distinct. apply NoDup_incl_length; [apply NoDup_nodup|]. intros x Hx. apply nodup_In in Hx. apply in_app_or in Hx as [Hx|Hx]; auto. now destruct (Hempty x). }
    rewrite (proj1 W) in Hle. lia. }
  destruct (@C28_insert V hash e0 m' (new_table e0 m') (entries t) sched ltac:(lia) (@reached_new _ hash e0 _ _ m') Hd) as [H1 H2].
  split; auto. split; [exact H1|]. intros Hfin. destruct (H2 Hfin) as (N & K & _ & Hnew). fold s in N, K, Hnew. split; [|split].
  - apply lookup_perm; [exact N|exact (wf_keys_NoDup Hm W)|]. intros k.
    destruct (in_dec Nat.eq_dec k (keys_of t)) as [Hk|Hk].
    + destruct (Hnew k (Hempty k) Hk) as (i & v & E & _ & L & _). rewrite L. symmetry. apply lookup_In; [exact (wf_keys_NoDup Hm W)|].
      now apply nth_error_In in E.
    + rewrite (proj2 (lookup_None (entries t) k) Hk). apply lookup_None. intros Hin. apply K in Hin as [Hin|Hin]; [now destruct (Hempty k)|auto].
  - assert (Hm0 : 0 < m') by lia. exact (proj1 (I_wf (HIs Hm0 (@reached_new _ hash e0 _ _ m') _ Hd sched))).
  - apply reached_phase; auto. apply reached_new.
Qed.

Print Assumptions C28_insert.
Print Assumptions C28_find.
Print Assumptions C28_capacity.
Print Assumptions C28_insert_f.
Print Assumptions C29_sums.
Print Assumptions C29_lookup_ends.
Print Assumptions C29_lookup_diverges_refuted.
Print Assumptions C30_counts.
Print Assumptions C30_pairs.
Print Assumptions C30_pairs_sum_refuted.
Print Assumptions C30_insertF.
Print Assumptions C30_compact.
Print Assumptions C50_resize.
