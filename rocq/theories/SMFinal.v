From Verif Require Import Base ListUtil GBModel GBProofs SFModel SFSpec SFProps ISModel ISSpec ISProofs TCModel TCProofs SIModel SIProofs SMModel SMSpec SMProofs SMCount.
From Coq Require Import ZArith Permutation Sorted.
Local Open Scope nat_scope.
Unset Strict Implicit.

Lemma all_some_flat {A B} (f : A -> list (option B)) (g : A -> list B) l : (forall x, In x l -> all_some (f x) = Some (g x)) -> all_some (flat_map f l) = Some (flat_map g l).
Proof.
  intros H. assert (App : forall a b (x y : list B), all_some a = Some x -> all_some b = Some y -> all_some (a ++ b) = Some (x ++ y)).
  { clear. induction a as [|[c|] a IH]; cbn; intros b x y Ea Eb; [injection Ea as <-; auto| |discriminate].
    destruct (all_some a) as [r|] eqn:E; [|discriminate]. injection Ea as <-. now rewrite (IH b r y). }
  induction l as [|x l IH]; cbn; auto. apply App; [apply H; now left|]. apply IH. intros y Hy. apply H. now right.
Qed.
Lemma run_adds_ok M adds c : (0 < M)%Z -> (forall e, In e adds -> fst e < length c) -> (forall i, i < length c -> (0 <= nth i c 0 < M)%Z) ->
  exists c', run_adds M adds c = Some c' /\ length c' = length c /\ forall i, i < length c -> nth i c' 0%Z = ((nth i c 0 + zsum (map (at_ i) adds)) mod M)%Z.
Proof.
  intros HM. revert c. induction adds as [|[k x] adds IH]; intros c Hi Hc; cbn [run_adds].
  - exists c. split; auto. split; auto. intros i Hl. cbn. rewrite Z.add_0_r. rewrite Z.mod_small; auto.
  - assert (Hk : k < length c) by apply (Hi (k, x) (or_introl eq_refl)). rewrite (proj2 (Nat.ltb_lt _ _) Hk). set (y := ((nth k c 0 + x) mod M)%Z).
    destruct (IH (lset c k y)) as (c' & E & L & H).
    + intros e He. rewrite length_lset. apply Hi. now right.
    + intros i Hl. rewrite length_lset in Hl. destruct (Nat.eq_dec i k) as [->|Hn]; [rewrite nth_lset_same by auto; apply Z.mod_pos_bound; auto|rewrite nth_lset_other by auto; auto].
    + rewrite length_lset in *. exists c'. split; auto. split; auto. intros i Hl. rewrite (H i Hl). cbn [map]. unfold zsum at 2. cbn [fold_right]. fold (zsum (map (at_ i) adds)). unfold at_ at 2. cbn [fst snd].
      destruct (Nat.eqb_spec k i) as [->|Hn].
      * rewrite nth_lset_same by auto. unfold y. rewrite Zplus_mod_idemp_l. f_equal. lia.
      * rewrite nth_lset_other by auto. reflexivity.
Qed.
Lemma run_stores_perm {A} (st : list (nat * A)) arr : Permutation (map fst st) (seq 0 (length arr)) -> exists r, run_stores st arr = Some r /\ Permutation r (map snd st).
Proof.
  intros Hp. destruct st as [|[k0 x0] st']; [exists arr; cbn; split; auto; cbn in Hp; apply Permutation_length in Hp; rewrite seq_length in Hp; destruct arr; [auto|discriminate]|].
  set (st := (k0, x0) :: st') in *. assert (Hn : NoDup (map fst st)) by (eapply Permutation_NoDup; [apply Permutation_sym; exact Hp|apply seq_NoDup]).
  set (f := fun k => match find (fun t => fst t =? k) st with Some t => snd t | None => x0 end).
  assert (Hf : forall k x, In (k, x) st -> x = f k).
  { intros k x Hx. unfold f. rewrite (proj2 (@find_some_iff _ fst st k (k, x) Hn)); auto. }
  destruct (@run_stores_consistent A f (length arr) st arr eq_refl) as (r & E & L & H).
  { intros k x Hx. split; [|now apply Hf]. assert (Y : In k (map fst st)) by (change k with (fst (k, x)); now apply in_map). apply (Permutation_in _ Hp), in_seq in Y. lia. }
  exists r. split; auto.
  assert (Er : r = map f (seq 0 (length arr))).
  { apply list_ext_nth_error. intros i. destruct (Nat.lt_ge_cases i (length arr)) as [Hi|Hi].
    - rewrite nth_error_map, (nth_error_nth' _ 0) by (rewrite seq_length; auto). rewrite seq_nth by auto. cbn. destruct (H i Hi) as [[H1 _]|[_ H2]]; auto. exfalso.
      assert (Y : In i (map fst st)) by (apply (Permutation_in _ (Permutation_sym Hp)), in_seq; lia). apply in_map_iff in Y as ([k x] & <- & Y). eapply H2; eauto.
    - rewrite !(proj2 (nth_error_None _ _)); auto; [rewrite map_length, seq_length; auto|lia]. }
  rewrite Er, <- Hp, map_map. erewrite map_ext_in; [reflexivity|]. intros [k x] Hx. cbn. symmetry. now apply Hf.
Qed.
Lemma filter_key {T} (key : T -> nat) x L : NoDup (map key L) -> filter (fun t => key t =? x) L = match find (fun t => key t =? x) L with Some t => [t] | None => [] end.
Proof.
  induction L as [|y L IH]; cbn; auto. intros Hn. inversion Hn as [|? ? N1 N2]; subst. destruct (Nat.eqb_spec (key y) x) as [<-|]; auto. f_equal.
  apply filter_none. intros z Hz. apply Nat.eqb_neq. intros E. apply N1. rewrite <- E. now apply in_map.
Qed.

Section Final.
  Variables (W : Type) (prod : W -> W -> Z) (base thresh : nat) (M : Z) (measure : nat -> nat -> W -> Z -> Z).
  Hypothesis prod_comm : forall a b, prod a b = prod b a.
  Hypothesis Hbase : 2 <= base.
  Hypothesis HM : (0 < M)%Z.
  Hypothesis measure_sym : forall v u w c, measure v u w c = measure u v w c.
  Variable G : csr W.
  Hypothesis HG : loopless G.
  Variable rank : list nat.
  Hypothesis Hrank : injective_rank (gn G) rank.
  Notation n := (gn G).
  Notation rk u := (nth u rank 0).
  Notation N := (neighbors G).

  (* the weight of an edge *)
  Definition wt (u v : nat) : option W := option_map snd (find (fun y => fst y =? v) (N u)).
  Lemma keysN u : u < n -> NoDup (map fst (N u)).
  Proof. intros Hu. apply inc_NoDup. exact (ll_sorted HG Hu). Qed.
  Lemma wt_iff u v w : u < n -> wt u v = Some w <-> In (v, w) (N u).
  Proof.
    intros Hu. unfold wt. split.
    - destruct (find (fun y => fst y =? v) (N u)) as [[y w']|] eqn:E; [|discriminate]. cbn. intros X. injection X as ->. apply (@find_some_iff _ fst _ _ _ (keysN Hu)) in E as [E1 E2]. cbn in E2. now subst.
    - intros H. rewrite (proj2 (@find_some_iff _ fst (N u) v (v, w) (keysN Hu))); auto.
  Qed.
  Lemma in_nbrs u v w : In (v, w) (N u) -> In v (nbrs G u).
  Proof. intros H. unfold nbrs. change v with (fst (v, w)). now apply in_map. Qed.
  Lemma wt_sym u v : u < n -> v < n -> wt u v = wt v u.
  Proof.
    intros Hu Hv. destruct (wt u v) as [w|] eqn:E.
    - symmetry. apply wt_iff; auto. apply wt_iff in E; auto. now apply (ll_sym HG).
    - destruct (wt v u) as [w|] eqn:E'; auto. apply wt_iff in E'; auto. apply (ll_sym HG) in E'; auto. apply wt_iff in E'; auto. congruence.
  Qed.
  Lemma wt_self u : u < n -> wt u u = None.
  Proof. intros Hu. destruct (wt u u) as [w|] eqn:E; auto. apply wt_iff in E; auto. apply in_nbrs in E. apply (ll_range HG) in E; auto. tauto. Qed.
  Lemma shared_sum u v : u < n -> v < n -> shared prod G u v = sumn n (fun z => opt (fun a => opt (fun b => prod a b) (wt v z)) (wt u z)).
  Proof.
    intros Hu Hv. unfold shared. fold (zsum (flat_map (fun x => map (fun y => prod (snd x) (snd y)) (filter (fun y => fst y =? fst x) (N v))) (N u))).
    rewrite <- (map_id (flat_map _ _)), zsum_flat, (@key_sum _ fst _ n (N u) (keysN Hu)).
    - apply sumn_ext. intros z Hz. unfold wt at 2. destruct (find (fun t => fst t =? z) (N u)) as [[y a]|] eqn:E; cbn [opt option_map snd fst]; auto.
      apply (@find_some_iff _ fst _ _ _ (keysN Hu)) in E as [_ E]. cbn in E. subst y. rewrite map_id, (@filter_key _ fst z (N v) (keysN Hv)). unfold wt.
      destruct (find (fun t => fst t =? z) (N v)) as [[y b]|]; cbn; lia.
    - intros [v' w] Ht. apply in_nbrs in Ht. apply (ll_range HG) in Ht; tauto.
  Qed.
  Lemma shared_sym u v : u < n -> v < n -> shared prod G u v = shared prod G v u.
  Proof.
    intros Hu Hv. rewrite !shared_sum by auto. apply sumn_ext. intros z _. destruct (wt u z), (wt v z); cbn; auto.
  Qed.

  (* the directed graph *)
  Variable DG : csr W.
  Hypothesis DGn : gn DG = n.
  Hypothesis DGm : gm DG = total_degree DG.
  Hypothesis DGf : forall v, v < n -> neighbors DG v = filter (fun x => rk v <? rk (fst x)) (N v).
  Notation dg := (neighbors DG).
  Notation off := (sum_before (fun v => length (dg v))).
  Lemma dg_in v u w : v < n -> In (u, w) (dg v) <-> In (u, w) (N v) /\ rk v < rk u.
  Proof. intros Hv. rewrite DGf by auto. rewrite filter_In. cbn [fst]. now rewrite Nat.ltb_lt. Qed.
  Lemma dg_inc v : v < n -> increasing (map fst (dg v)).
  Proof.
    intros Hv. rewrite DGf by auto. pose proof (ll_sorted HG Hv) as H. unfold nbrs in H. induction (N v) as [|x l IH]; cbn [filter map]; [constructor|]. cbn [map] in H. apply inc_inv in H as [H1 H2].
    destruct (rk v <? rk (fst x)); auto. cbn [map]. apply inc_cons; auto. intros y Hy. apply H2. apply in_map_iff in Hy as (z & <- & Hz). apply filter_In in Hz. now apply in_map.
  Qed.
  Lemma dg_range u v : u < n -> In v (map fst (dg u)) -> v < n.
  Proof. intros Hu Hv. apply in_map_iff in Hv as ([v' w] & <- & Hv). apply dg_in in Hv as [Hv _]; auto. apply in_nbrs in Hv. apply (ll_range HG) in Hv; tauto. Qed.
  Lemma look_wt u v : u < n -> option_map (fun t => snd (snd t)) (look (dg u) v) = if rk u <? rk v then wt u v else None.
  Proof.
    intros Hu. destruct (look (dg u) v) as [[i [y w]]|] eqn:E; cbn [option_map snd].
    - apply (@look_iff _ _ _ _ _ (dg_inc Hu)) in E as [E1 E2]. cbn in E2. subst y. apply nth_error_In in E1. apply dg_in in E1 as [E1 E2]; auto.
      rewrite (proj2 (Nat.ltb_lt _ _) E2). symmetry. now apply wt_iff.
    - destruct (Nat.ltb_spec (rk u) (rk v)) as [Hr|]; auto. destruct (wt u v) as [w|] eqn:Ew; auto. apply wt_iff in Ew; auto.
      assert (X : In (v, w) (dg u)) by (apply dg_in; auto). apply In_nth_error in X as [i Hi].
      rewrite (proj2 (@look_iff _ _ v i (v, w) (dg_inc Hu))) in E; auto. discriminate.
  Qed.
  Lemma tri_wt u v x f : u < n -> v < n -> x < n ->
    tri dg u v x f = opt (fun a => opt (fun b => opt (fun c => f a b c) (if rk v <? rk x then wt v x else None)) (if rk u <? rk x then wt u x else None)) (if rk u <? rk v then wt u v else None).
  Proof.
    intros Hu Hv Hx. rewrite <- !look_wt by auto. unfold tri. destruct (look (dg u) v); cbn; auto. destruct (look (dg u) x); cbn; auto. destruct (look (dg v) x); cbn; auto.
  Qed.
  Theorem counter_value p k q w : p < n -> nth_error (dg p) k = Some (q, w) -> value prod base thresh n dg (off p + k) = shared prod G p q.
  Proof.
    intros Hp Hk. rewrite (edge_total prod_comm thresh Hbase dg_inc dg_range Hp Hk). pose proof (nth_error_In _ _ Hk) as Hin. apply dg_in in Hin as [Hin Hr]; auto.
    assert (Hq : q < n) by (apply in_nbrs in Hin; apply (ll_range HG) in Hin; tauto). rewrite shared_sum by auto. apply sumn_ext. intros z Hz.
    rewrite !tri_wt by auto. apply wt_iff in Hin; auto. rewrite (proj2 (Nat.ltb_lt _ _) Hr), Hin. rewrite (wt_sym Hz Hp), (wt_sym Hz Hq).
    destruct (Nat.eq_dec z p) as [->|Np]; [rewrite (wt_self Hp), !Nat.ltb_irrefl; cbn -[Nat.ltb]; lia|].
    destruct (Nat.eq_dec z q) as [->|Nq]; [rewrite (wt_self Hq), !Nat.ltb_irrefl; cbn -[Nat.ltb]; destruct (rk p <? rk q), (rk q <? rk p), (wt p q); cbn; lia|].
    assert (Rp : rk z <> rk p) by (intros X; apply Hrank in X; auto). assert (Rq : rk z <> rk q) by (intros X; apply Hrank in X; auto).
    destruct (Nat.ltb_spec (rk p) (rk z)), (Nat.ltb_spec (rk z) (rk p)), (Nat.ltb_spec (rk z) (rk q)), (Nat.ltb_spec (rk q) (rk z)); try lia;
    destruct (wt p z), (wt q z); cbn; rewrite ?Z.add_0_l, ?Z.add_0_r; auto; lia.
  Qed.

  (* the additions *)
  Lemma off_lt u i : u < n -> i < length (dg u) -> off u + i < gm DG.
  Proof.
    intros Hu Hi. rewrite DGm. unfold total_degree. rewrite DGn. fold (off n). pose proof (@off_mono _ _ Hbase dg (S u) n Hu) as X. rewrite (off_S Hbase dg u) in X. lia.
  Qed.
  Lemma all_adds_ok : all_adds base thresh prod G DG = Some (adds prod base thresh n dg).
  Proof.
    unfold all_adds, adds. rewrite (@all_some_flat _ _ _ (fun u => map (adds_of prod base thresh dg u) (indexed (dg u)))); auto.
    intros u Hu. apply in_seq in Hu. apply all_some_map. intros [i [v w]] Hi. apply In_indexed in Hi. unfold edge_adds, adds_of, counter_offset.
    assert (Hu' : u < n) by lia. assert (Hv : v < n) by (apply (@dg_range u); auto; apply nth_error_In in Hi; change v with (fst (v, w)); now apply in_map).
    destruct (calls_of_ok prod_comm thresh Hbase dg_inc Hu' Hv) as [E _]. now rewrite E.
  Qed.
  Lemma adds_range e : In e (adds prod base thresh n dg) -> fst e < gm DG.
  Proof.
    intros He. unfold adds in He. apply in_concat in He as (l & Hl & He). apply in_flat_map in Hl as (u & Hu & Hl). apply in_seq in Hu. apply in_map_iff in Hl as ([i [v w]] & <- & Hi).
    apply In_indexed in Hi. assert (Hu' : u < n) by lia. assert (Hv : v < n) by (apply (@dg_range u); auto; apply nth_error_In in Hi; change v with (fst (v, w)); now apply in_map).
    destruct (calls_of_ok prod_comm thresh Hbase dg_inc Hu' Hv) as [_ Hg]. unfold adds_of in He. apply in_app_iff in He as [He|[<-|[]]].
    - apply in_flat_map in He as ([[[[x iu] iv] a] b] & Hc & He). apply Hg in Hc as (i' & j' & -> & -> & E1 & E2). destruct He as [<-|[<-|[]]]; cbn; apply off_lt; auto; apply nth_error_Some; congruence.
    - cbn. apply off_lt; auto. apply nth_error_Some; congruence.
  Qed.
  Lemma counters_ok sh : reorders sh -> exists c, run_adds M (sh (adds prod base thresh n dg)) (repeat 0%Z (gm DG)) = Some c /\ length c = gm DG /\
    forall p k q w, p < n -> nth_error (dg p) k = Some (q, w) -> nth_error c (off p + k) = Some (shared prod G p q mod M)%Z.
  Proof.
    intros Hs. destruct (@run_adds_ok M (sh (adds prod base thresh n dg)) (repeat 0%Z (gm DG)) HM) as (c & E & L & H).
    - intros e He. rewrite repeat_length. apply adds_range. eapply Permutation_in; [apply Hs|exact He].
    - intros i Hi. rewrite repeat_length in Hi. rewrite nth_repeat. lia.
    - rewrite repeat_length in *. exists c. split; auto. split; auto. intros p k q w Hp Hk.
      assert (Hi : off p + k < gm DG) by (apply off_lt; auto; apply nth_error_Some; congruence).
      rewrite (nth_error_nth' _ 0%Z) by lia. rewrite (H _ Hi), nth_repeat, Z.add_0_l. rewrite <- (counter_value Hp Hk). unfold value. do 2 f_equal. apply zsum_perm. apply Permutation_map, Hs.
  Qed.

  (* the stores *)
  Definition sim_of (v : nat) (x : nat * W) : Z := measure v (fst x) (snd x) (shared prod G v (fst x) mod M)%Z.
  Definition fwd (v : nat) (x : nat * W) : esim := {| source := v; neighbor := fst x; similarity := sim_of v x |}.
  Definition bwd (v : nat) (x : nat * W) : esim := {| source := fst x; neighbor := v; similarity := sim_of v x |}.
  Definition stores_of (v : nat) (x : nat * (nat * W)) : list (nat * esim) := [(2 * (off v + fst x), fwd v (snd x)); (2 * (off v + fst x) + 1, bwd v (snd x))].
  Definition stores : list (nat * esim) := concat (flat_map (fun v => map (stores_of v) (indexed (dg v))) (seq 0 n)).
  Lemma all_stores_ok c : (forall p k q w, p < n -> nth_error (dg p) k = Some (q, w) -> nth_error c (off p + k) = Some (shared prod G p q mod M)%Z) ->
    all_sim_stores measure DG c = Some stores.
  Proof.
    intros Hc. unfold all_sim_stores, stores. rewrite DGn. rewrite (@all_some_flat _ _ _ (fun v => map (stores_of v) (indexed (dg v)))); auto.
    intros u Hu. apply in_seq in Hu. apply all_some_map. intros [i [v w]] Hi. apply In_indexed in Hi. unfold sim_stores, counter_offset, stores_of. cbn [fst snd]. rewrite (Hc u i v w) by (auto; lia). reflexivity.
  Qed.
  Lemma concat_flat {A B} (f : A -> list (list B)) l : concat (flat_map f l) = flat_map (fun x => concat (f x)) l.
  Proof. induction l as [|x l IH]; cbn; auto. now rewrite concat_app, IH. Qed.
  Lemma stores_index : map fst stores = seq 0 (2 * gm DG).
  Proof.
    unfold stores. rewrite concat_flat. rewrite DGm. unfold total_degree. rewrite DGn. fold (off n).
    assert (In1 : forall v, map fst (concat (map (stores_of v) (indexed (dg v)))) = seq (2 * off v) (2 * length (dg v))).
    { intros v. unfold indexed. assert (X : forall (l : list (nat * W)) k, map fst (concat (map (stores_of v) (combine (seq k (length l)) l))) = seq (2 * (off v + k)) (2 * length l)).
      { induction l as [|x l IH]; intros k; [now rewrite Nat.mul_0_r|]. replace (2 * length (x :: l)) with (S (S (2 * length l))) by (cbn [length]; lia).
        cbn [length seq combine map concat stores_of app fst]. rewrite IH. f_equal. f_equal; [lia|]. f_equal; lia. }
      rewrite X. f_equal. lia. }
    clear -In1 Hbase. induction n as [|m IH]; [reflexivity|]. rewrite seq_S, flat_map_app, map_app, IH. cbn [flat_map Nat.add]. rewrite app_nil_r, In1, (off_S Hbase). rewrite Nat.mul_add_distr_l, seq_app. reflexivity.
  Qed.
  Definition wanted : list esim := flat_map (fun u => map (fwd u) (N u)) (seq 0 n).
  Definition both (v : nat) (x : nat * W) : list esim := [fwd v x; bwd v x].
  Lemma stores_values : map snd stores = flat_map (fun v => flat_map (both v) (dg v)) (seq 0 n).
  Proof.
    unfold stores. rewrite concat_flat. induction (seq 0 n) as [|v l IH]; [reflexivity|]. cbn [flat_map]. rewrite map_app, IH. f_equal.
    rewrite <- (map_snd_indexed (dg v)) at 2. induction (indexed (dg v)) as [|x r IH']; [reflexivity|]. cbn [map concat flat_map]. rewrite map_app, IH'. reflexivity.
  Qed.
  Lemma fwd_bwd v x : v < n -> In x (N v) -> exists y, In y (N (fst x)) /\ fst x < n /\ bwd v x = fwd (fst x) y /\ fst y = v.
  Proof.
    intros Hv Hx. destruct x as [u w]. cbn. assert (Hu : u < n) by (apply in_nbrs in Hx; apply (ll_range HG) in Hx; tauto).
    exists (v, w). split; [now apply (ll_sym HG)|]. split; auto. split; auto. unfold bwd, fwd, sim_of. cbn. rewrite measure_sym, (shared_sym Hv Hu). reflexivity.
  Qed.
  Definition key (e : esim) : nat * nat := (source e, neighbor e).
  Lemma NoDup_key {A B} (f : A -> B) l : NoDup (map f l) -> NoDup l.
  Proof. apply NoDup_map_inv. Qed.
  Lemma dg_rank v x : v < n -> In x (dg v) -> In x (N v) /\ rk v < rk (fst x).
  Proof. intros Hv. destruct x. now apply dg_in. Qed.
  Lemma NoDup_values : NoDup (flat_map (fun v => flat_map (both v) (dg v)) (seq 0 n)).
  Proof.
    assert (Kd : forall v, v < n -> NoDup (dg v)) by (intros v Hv; apply (NoDup_map_inv fst), inc_NoDup, dg_inc; auto).
    assert (B : forall v x e, v < n -> In x (dg v) -> In e (both v x) -> (source e = v /\ neighbor e = fst x) \/ (source e = fst x /\ neighbor e = v)).
    { intros v x e _ _ [<-|[<-|[]]]; cbn; auto. }
    assert (Uniq : forall v x y, v < n -> In x (dg v) -> In y (dg v) -> fst x = fst y -> x = y).
    { intros v x y Hv Hx Hy E. pose proof (inc_NoDup (dg_inc Hv)) as Q. pose proof (proj2 (@find_some_iff _ fst (dg v) (fst x) x Q) (conj Hx eq_refl)) as E1.
      pose proof (proj2 (@find_some_iff _ fst (dg v) (fst x) y Q) (conj Hy (eq_sym E))) as E2. congruence. }
    apply NoDup_flat; [apply seq_NoDup| |].
    - intros v Hv. apply in_seq in Hv. apply NoDup_flat; [apply Kd; lia| |].
      + intros x Hx. apply dg_rank in Hx as [_ Hr]; [|lia]. repeat constructor; [|intros []]. intros [E|[]]. apply (f_equal source) in E. cbn in E. rewrite E in Hr. lia.
      + intros x y e Hx Hy H1 H2. assert (Hv' : v < n) by lia. apply (Uniq v); auto. pose proof (dg_rank Hv' Hx) as [_ R1]. pose proof (dg_rank Hv' Hy) as [_ R2].
        destruct (B v x e Hv' Hx H1) as [[A1 A2]|[A1 A2]], (B v y e Hv' Hy H2) as [[A3 A4]|[A3 A4]]; try congruence.
    - intros u v e Hu Hv H1 H2. apply in_seq in Hu, Hv. apply in_flat_map in H1 as (x & Hx & H1). apply in_flat_map in H2 as (y & Hy & H2).
      assert (Hu' : u < n) by lia. assert (Hv' : v < n) by lia. pose proof (dg_rank Hu' Hx) as [_ R1]. pose proof (dg_rank Hv' Hy) as [_ R2].
      destruct (B u x e Hu' Hx H1) as [[A1 A2]|[A1 A2]], (B v y e Hv' Hy H2) as [[A3 A4]|[A3 A4]]; try congruence.
      + exfalso. rewrite <- A1, <- A2, A3, A4 in R1. lia.
      + exfalso. rewrite <- A1, <- A2, A3, A4 in R1. lia.
  Qed.
  Lemma NoDup_wanted : NoDup wanted.
  Proof.
    unfold wanted. apply NoDup_flat; [apply seq_NoDup| |].
    - intros v Hv. apply in_seq in Hv. apply (NoDup_map_inv neighbor). rewrite map_map. cbn. apply keysN. lia.
    - intros u v e _ _ H1 H2. apply in_map_iff in H1 as (x & <- & _). apply in_map_iff in H2 as (y & E & _). apply (f_equal source) in E. now cbn in E.
  Qed.
  Lemma values_wanted : Permutation (map snd stores) wanted.
  Proof.
    rewrite stores_values. apply NoDup_Permutation; [apply NoDup_values|apply NoDup_wanted|]. intros e. unfold wanted. rewrite !in_flat_map. setoid_rewrite in_seq. split.
    - intros (v & Hv & H). apply in_flat_map in H as (x & Hx & H). assert (Hv' : v < n) by lia. apply dg_rank in Hx as [Hx _]; auto. destruct H as [<-|[<-|[]]].
      + exists v. split; auto. now apply in_map.
      + destruct (fwd_bwd Hv' Hx) as (y & Hy & Hl & E & _). exists (fst x). split; [lia|]. rewrite E. now apply in_map.
    - intros (v & Hv & H). apply in_map_iff in H as (x & <- & Hx). assert (Hv' : v < n) by lia. destruct (Nat.lt_ge_cases (rk v) (rk (fst x))) as [Hr|Hr].
      + exists v. split; auto. apply in_flat_map. exists x. split; [destruct x; apply dg_in; auto|]. now left.
      + destruct (fwd_bwd Hv' Hx) as (y & Hy & Hl & E & Ey). exists (fst x). split; [lia|]. apply in_flat_map. exists y. split.
        * destruct y as [y w]. apply dg_in; auto. split; auto. cbn in Ey. subst y. destruct (Nat.eq_dec (rk v) (rk (fst x))) as [Q|]; [|lia]. apply Hrank in Q; auto. exfalso.
          destruct x as [x w']. apply in_nbrs in Hx. apply (ll_range HG) in Hx as [_ Hx]; auto.
        * right. left. destruct (@fwd_bwd (fst x) y Hl Hy) as (z & Hz & _ & E' & Ez). rewrite E', Ey. f_equal. rewrite Ey in Hz.
          pose proof (keysN Hv') as Q. pose proof (proj2 (@find_some_iff _ fst (N v) (fst x) x Q) (conj Hx eq_refl)) as E1.
          pose proof (proj2 (@find_some_iff _ fst (N v) (fst x) z Q) (conj Hz Ez)) as E2. congruence.
  Qed.
  Theorem directed_ok sh1 sh2 : reorders sh1 -> reorders sh2 ->
    exists r, directed_similarities base thresh M prod measure G DG sh1 sh2 = Some r /\ Permutation wanted r.
  Proof.
    intros H1 H2. unfold directed_similarities. rewrite all_adds_ok. destruct (counters_ok H1) as (c & E & _ & Hc). rewrite E, (all_stores_ok Hc).
    assert (L : gm G = 2 * gm DG).
    { rewrite (ll_edges HG). transitivity (length wanted).
      - unfold wanted, total_degree. induction (seq 0 n) as [|u l IH]; [reflexivity|]. cbn [map list_sum fold_right flat_map]. rewrite app_length, map_length, <- IH. reflexivity.
      - rewrite <- (Permutation_length values_wanted), map_length, <- (map_length fst), stores_index, seq_length. reflexivity. }
    destruct (@run_stores_perm _ (sh2 stores) (repeat no_sim (gm G))) as (r & Er & Hr).
    - rewrite repeat_length, L, <- stores_index. apply Permutation_map, H2.
    - exists r. split; auto. rewrite Hr, <- values_wanted. apply Permutation_map, Permutation_sym, H2.
  Qed.
End Final.

Theorem edge_sims_ok W (prod : W -> W -> Z) base thresh M measure (G : csr W) rank sh0 junk sh1 sh2 : (forall a b, prod a b = prod b a) -> 2 <= base -> (0 < M)%Z ->
  (forall v u w c, measure v u w c = measure u v w c) -> loopless G -> injective_rank (gn G) rank -> reorders sh0 -> reorders sh1 -> reorders sh2 ->
  exists r, edge_sims base thresh M prod measure sh0 junk sh1 sh2 rank G = Some r /\ Permutation (wanted prod M measure G) r.
Proof.
  intros Hc Hb HM Hm HG Hr H0 H1 H2. unfold edge_sims. destruct (C33_filter_graph (fun u x => nth u rank 0 <? nth (fst x) rank 0) junk G H0) as (DG & E & _ & Hn & Hf & Ht). rewrite E.
  exact (@directed_ok W prod base thresh M measure Hc Hb HM Hm G HG rank Hr DG Hn Ht Hf sh1 sh2 H1 H2).
Qed.
