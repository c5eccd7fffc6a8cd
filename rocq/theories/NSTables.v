(* C71: what the tables of neighbours and similarities hold. *)
From Verif Require Import Base ListUtil ISSpec SIModel SIProofs SMFinal SMProps HTModel HTSpec HTProofs HTProps NSSpec NSModel.
From Coq Require Import ZArith Cantor.
Local Open Scope nat_scope.
Unset Strict Implicit.

Lemma edge_key_sym u v : edge_key u v = edge_key v u.
Proof. unfold edge_key. now rewrite Nat.min_comm, Nat.max_comm. Qed.
Lemma edge_key_inj u v u' v' : edge_key u v = edge_key u' v' -> (u = u' /\ v = v') \/ (u = v' /\ v = u').
Proof. unfold edge_key. intros E. apply to_nat_inj in E. injection E as E1 E2. lia. Qed.

Lemma distinct_le l : distinct l <= length l.
Proof. unfold distinct. apply NoDup_incl_length; [apply NoDup_nodup|]. intros x Hx. now apply nodup_In in Hx. Qed.
Lemma capacity cap : cap <= 11 * cap / 10.
Proof. apply Nat.div_le_lower_bound; lia. Qed.
Lemma keys_new V (e0 : V) m : keys_of (new_table e0 m) = [].
Proof. unfold keys_of, new_table, entries. induction m; cbn; auto. Qed.

Section Fills.
  Variable V : Type.
  Variable hash : nat -> nat.
  Variable e0 : V.
  Variables (cap : nat) (calls : list (nat * V)).
  Hypothesis Hcap : length calls <= cap.
  Notation m := (sparse_table_size (11 * cap / 10)).
  Lemma room : 0 < m /\ distinct (map fst calls) < m.
  Proof.
    assert (H : distinct (map fst calls) <= cap) by (etransitivity; [apply distinct_le|]; now rewrite map_length).
    pose proof (@C28_capacity cap _ _ (capacity cap) H). lia.
  Qed.
  Lemma fills_exists : exists t, fills hash e0 (table_for e0 cap) calls t.
  Proof.
    destruct room as [Hm Hd]. set (sched := flat_map (fun i => repeat i (3 * m + 2)) (seq 0 (length calls))).
    exists (tab (exec e0 (fun _ v => v) None calls sched (start hash (table_for e0 cap) calls))). exists sched. cbv zeta. split; auto.
    assert (D : distinct (keys_of (new_table e0 m) ++ map fst calls) <= m) by (rewrite keys_new; cbn [app]; lia).
    destruct (@C28_insert V hash e0 m (new_table e0 m) calls sched Hm (reached_new _ _ _ _ _) D) as [H _].
    intros i p Hp. assert (Hi : i < length calls).
    { assert (Hp1 : nth_error (pcs (exec e0 (fun _ v => v) None calls sched (start hash (table_for e0 cap) calls))) i <> None) by congruence. apply nth_error_Some in Hp1. revert Hp1. generalize sched. clear. intros sched.
      assert (G : forall sched s, length (pcs (exec e0 (fun _ v => v) None calls sched s)) = length (pcs s)).
      { clear. unfold exec. induction sched as [|i sched IH]; intros s; cbn [fold_left]; auto. rewrite IH. unfold sys_step. destruct (nth_error calls i); auto. destruct (nth_error (pcs s) i) as [q|]; auto.
        destruct (tstep _ _ _ _ _ _ _ _) as [[t1 q1] lg]. cbn. apply length_lset. }
      rewrite G. cbn [start pcs]. now rewrite map_length. }
    destruct (H i Hi) as (r & Hr).
    - unfold steps, sched. clear -Hi. assert (G : forall l k, In i l -> k <= count_occ Nat.eq_dec (flat_map (fun i => repeat i k) l) i).
      { induction l as [|a l IH]; intros k Hin; [destruct Hin|]. cbn [flat_map]. rewrite count_occ_app. destruct Hin as [->|Hin]; [|specialize (IH k Hin); lia].
        assert (count_occ Nat.eq_dec (repeat i k) i = k); [|lia]. clear. induction k; cbn; auto. destruct (Nat.eq_dec i i); lia. }
      apply G. apply in_seq. lia.
    - unfold returned in Hr. unfold table_for in Hp. exists r. congruence.
  Qed.
  Variable t : table V.
  Hypothesis Ht : fills hash e0 (table_for e0 cap) calls t.
  Lemma fills_spec k default :
    contains hash e0 t k (length t) = Some (existsb (Nat.eqb k) (map fst calls)) /\
    (In k (map fst calls) -> exists v, In (k, v) calls /\ find hash e0 t k (length t) default = Some v) /\
    (~ In k (map fst calls) -> find hash e0 t k (length t) default = Some default).
  Proof.
    destruct room as [Hm Hd]. destruct Ht as (sched & Hfin & ->).
    assert (D : distinct (keys_of (new_table e0 m) ++ map fst calls) <= m) by (rewrite keys_new; cbn [app]; lia).
    pose proof (@reached_phase _ hash e0 (fun _ v => v) None m _ _ _ (reached_new hash e0 (fun _ v => v) None m) D Hfin) as Hr. set (t1 := tab _) in *.
    destruct (@C28_insert V hash e0 m (new_table e0 m) calls sched Hm (reached_new _ _ _ _ _) D) as [_ H].
    destruct (H Hfin) as (Hnd & Hkeys & _ & Hnew). change (tab _) with t1 in Hnd, Hkeys, Hnew. rewrite keys_new in Hkeys, Hnew.
    assert (Hl : length t1 = m) by now destruct (reached_ok Hm Hr) as [[? _] _].
    assert (Dt : distinct (keys_of t1) < m) by (eapply Nat.le_lt_trans; [apply distinct_incl|exact Hd]; intros x Hx; apply Hkeys in Hx as [[]|]; auto).
    destruct (@C28_find V hash e0 _ _ m t1 k (length t1) default Hm Hr (or_introl Dt)) as [F C]; [lia|]. rewrite F, C. split; [|split].
    - f_equal. destruct (in_dec Nat.eq_dec k (keys_of t1)) as [i|i]; symmetry.
      + apply memb_In. apply Hkeys in i as [[]|]; auto.
      + apply memb_nIn. intros Q. apply i, Hkeys. auto.
    - intros Hk. destruct (Hnew k (fun x => x) Hk) as (i & v & Hi & _ & L & _). exists v. split; [eapply nth_error_In; eauto|]. now rewrite L.
    - intros Hk. rewrite (proj2 (lookup_None _ _)); auto. intros Q. change (In k (keys_of t1)) in Q. apply Hkeys in Q as [[]|]; auto.
  Qed.
End Fills.

Section Similarity.
  Variable hash_v hash_e : nat -> nat.
  Variable cos : nat -> nat -> nat -> Z.
  Hypothesis Hcos : forall a b c, cos a b c = cos a c b.
  Variable n : nat.
  Variable adj : nat -> list nat.
  Hypothesis HA : simple_adj n adj.
  Variable adjacency : nat -> table unit.
  Hypothesis Hadj : fills_adjacency hash_v n adj adjacency.

  Lemma contains_ok u x : u < n -> contains hash_v tt (adjacency u) x (length (adjacency u)) = Some (existsb (Nat.eqb x) (adj u)).
  Proof.
    intros Hu. destruct (@fills_spec unit hash_v tt (length (adj u)) (adjacency_calls adj u)) with (t := adjacency u) (k := x) (default := tt) as [H _].
    - unfold adjacency_calls. now rewrite map_length.
    - now apply Hadj.
    - rewrite H. unfold adjacency_calls. rewrite map_map. cbn [fst]. now rewrite map_id.
  Qed.
  Lemma count_common a b : option_map (fun l => list_sum (map Nat.b2n l)) (all_some (map (fun x => Some (existsb (Nat.eqb x) b)) a)) = Some (in_common a b).
  Proof.
    rewrite (@all_some_map _ _ _ (fun x => existsb (Nat.eqb x) b)) by auto. cbn [option_map]. f_equal. unfold in_common.
    induction a as [|x a IH]; [reflexivity|]. cbn [map filter]. unfold list_sum in *. cbn [fold_right]. rewrite IH. destruct (existsb (Nat.eqb x) b); reflexivity.
  Qed.
  Lemma in_common_comm a b : NoDup a -> NoDup b -> in_common a b = in_common b a.
  Proof.
    intros Ha Hb. unfold in_common. apply Nat.le_antisymm; (apply NoDup_incl_length; [now apply NoDup_filter|]; intros x Hx; apply filter_In in Hx as [H1 H2]; apply memb_In in H2; apply filter_In; split; auto; now apply memb_In).
  Qed.
  Lemma num_shared_ok u v : u < n -> v < n -> num_shared hash_v adj adjacency u v = Some (in_common (adj u) (adj v)).
  Proof.
    intros Hu Hv. unfold num_shared. destruct (length (adj u) <? length (adj v)).
    - rewrite (map_ext _ (fun x => Some (existsb (Nat.eqb x) (adj v)))) by (intros; now apply contains_ok). apply count_common.
    - rewrite (map_ext _ (fun x => Some (existsb (Nat.eqb x) (adj u)))) by (intros; now apply contains_ok). rewrite count_common. f_equal. apply in_common_comm; apply (sa_nodup HA); auto.
  Qed.
  Lemma in_common_closed u v : u < n -> In v (adj u) -> in_common (closed adj u) (closed adj v) = in_common (adj u) (adj v) + 2.
  Proof.
    intros Hu H. destruct (sa_range HA Hu H) as [Hv Hne]. unfold in_common, closed. cbn [filter]. rewrite (proj2 (memb_In u (v :: adj v))) by (right; now apply (sa_sym HA)). cbn [length existsb].
    rewrite (@filter_add (adj u) v (fun x => existsb (Nat.eqb x) (adj v))); [lia|now apply (sa_nodup HA)|auto|]. apply memb_nIn. intros Q. apply (sa_range HA) in Q; tauto.
  Qed.
  Lemma structural_sym u v : u < n -> In v (adj u) -> structural cos adj u v = structural cos adj v u.
  Proof.
    intros Hu H. pose proof (sa_range HA Hu H) as [Hv _]. unfold structural. rewrite Hcos. f_equal. rewrite in_common_closed by auto. rewrite in_common_closed by (auto; now apply (sa_sym HA)).
    f_equal. apply in_common_comm; apply (sa_nodup HA); auto.
  Qed.
  Definition edge_calls (u v : nat) : list (nat * option Z) := if u <? v then [(edge_key u v, Some (structural cos adj u v))] else [].
  Definition sim_calls : list (nat * option Z) := concat (flat_map (fun u => map (edge_calls u) (adj u)) (seq 0 n)).
  Lemma similarity_calls_ok : similarity_calls hash_v cos n adj adjacency = Some sim_calls.
  Proof.
    unfold similarity_calls, sim_calls. rewrite (@all_some_flat _ _ _ (fun u => map (edge_calls u) (adj u))); auto. intros u Hu. apply in_seq in Hu. apply all_some_map. intros v Hv.
    assert (Hu' : u < n) by lia. pose proof (sa_range HA Hu' Hv) as [Hvn _]. unfold edge_call, edge_calls. destruct (u <? v); auto. rewrite num_shared_ok by auto. cbn [option_map]. do 3 f_equal.
    unfold structural. rewrite in_common_closed by auto. unfold closed. cbn [length]. now rewrite !Nat.add_1_r.
  Qed.
  Lemma sim_calls_length : length sim_calls <= list_sum (map (fun u => length (adj u)) (seq 0 n)).
  Proof.
    unfold sim_calls. induction (seq 0 n) as [|u l IH]; cbn [flat_map map list_sum fold_right concat length]; [lia|]. rewrite concat_app, app_length. cbn [list_sum fold_right].
    assert (length (concat (map (edge_calls u) (adj u))) <= length (adj u)); [|unfold list_sum in *; lia].
    clear. induction (adj u) as [|v l IH]; cbn [map concat length]; [lia|]. rewrite app_length. unfold edge_calls at 1. destruct (u <? v); cbn [length]; lia.
  Qed.
  Lemma In_sim_calls k s : In (k, s) sim_calls <-> exists u v, u < n /\ In v (adj u) /\ u < v /\ k = edge_key u v /\ s = Some (structural cos adj u v).
  Proof.
    unfold sim_calls. rewrite in_concat. split.
    - intros (l & Hl & H). apply in_flat_map in Hl as (u & Hu & Hl). apply in_map_iff in Hl as (v & <- & Hv). unfold edge_calls in H. destruct (Nat.ltb_spec u v); [|destruct H].
      destruct H as [E|[]]. injection E as <- <-. apply in_seq in Hu. exists u, v. repeat split; auto; lia.
    - intros (u & v & Hu & Hv & Hlt & -> & ->). exists (edge_calls u v). split; [|unfold edge_calls; apply Nat.ltb_lt in Hlt; rewrite Hlt; cbn; auto].
      apply in_flat_map. exists u. split; [apply in_seq; lia|]. now apply in_map.
  Qed.
  Lemma sim_key u v : u < n -> v < n -> u <> v -> (In (edge_key u v) (map fst sim_calls) <-> In v (adj u)).
  Proof.
    intros Hu Hv Hne. split.
    - intros H. apply in_map_iff in H as ([k s] & E & H). cbn in E. subst k. apply In_sim_calls in H as (a & b & Ha & Hb & Hlt & E & _). apply edge_key_inj in E as [[-> ->]|[-> ->]]; auto. now apply (sa_sym HA).
    - intros H. destruct (Nat.lt_ge_cases u v) as [L|L].
      + change (edge_key u v) with (fst (edge_key u v, Some (structural cos adj u v))). apply in_map. apply In_sim_calls. exists u, v. auto.
      + rewrite edge_key_sym. change (edge_key v u) with (fst (edge_key v u, Some (structural cos adj v u))). apply in_map. apply In_sim_calls. exists v, u. repeat split; auto; [now apply (sa_sym HA)|lia].
  Qed.

  Variable similarities : table (option Z).
  Hypothesis Hsims : fills_similarities hash_v hash_e cos n adj adjacency (list_sum (map (fun u => length (adj u)) (seq 0 n))) similarities.
  Lemma lookup_ok u v : u < n -> v < n -> u <> v ->
    find hash_e (Some 0%Z) similarities (edge_key u v) (length similarities) None = Some (if existsb (Nat.eqb v) (adj u) then Some (structural cos adj u v) else None).
  Proof.
    intros Hu Hv Hne. destruct Hsims as (calls & E & Hf). rewrite similarity_calls_ok in E. injection E as <-.
    destruct (@fills_spec _ hash_e (Some 0%Z) _ sim_calls sim_calls_length similarities Hf (edge_key u v) None) as (_ & H1 & H2). destruct (existsb (Nat.eqb v) (adj u)) eqn:M.
    - apply memb_In in M. destruct H1 as (s & Hs & F); [now apply sim_key|]. rewrite F. f_equal. apply In_sim_calls in Hs as (a & b & Ha & Hb & Hlt & K & ->). f_equal. apply edge_key_inj in K as [[-> ->]|[-> ->]]; auto.
      symmetry. now apply structural_sym.
    - apply memb_nIn in M. apply H2. intros Q. apply sim_key in Q; auto.
  Qed.
End Similarity.
