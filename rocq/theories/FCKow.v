(* Proofs for C68: the algorithm of Kowalik. *)
From Coq Require Import ZArith Permutation Sorted.
From Verif Require Import Base ListUtil FCModel FCCount.
Unset Strict Implicit.
Local Open Scope nat_scope.

Definition decreasing (l : list nat) : Prop := StronglySorted (fun x y => y < x) l.
Definition memb (x : nat) (l : list nat) : bool := existsb (Nat.eqb x) l.
Lemma memb_In x l : memb x l = true <-> In x l.
Proof. unfold memb. rewrite existsb_exists. split; [intros (y & Hy & E); apply Nat.eqb_eq in E; now subst|intros H; exists x; now rewrite Nat.eqb_refl]. Qed.
Lemma decreasing_NoDup l : decreasing l -> NoDup l.
Proof. induction 1 as [|x l Hs IH Hf]; constructor; auto. intros H. rewrite Forall_forall in Hf. apply Hf in H. lia. Qed.
Lemma decreasing_filter P l : decreasing l -> decreasing (filter P l).
Proof.
  induction 1 as [|x l Hs IH Hf]; simpl; [constructor|]. destruct (P x); auto. constructor; auto.
  rewrite Forall_forall in *. intros y Hy. apply filter_In in Hy as [Hy _]. auto.
Qed.
Lemma take_gt_filter i l : decreasing l -> take_gt i l = filter (fun x => i <? x) l.
Proof.
  induction 1 as [|x l Hs IH Hf]; simpl; auto. destruct (Nat.ltb_spec i x) as [H|H]; [now rewrite IH|].
  symmetry. apply filter_none. intros y Hy. rewrite Forall_forall in Hf. apply Hf in Hy. apply Nat.ltb_ge. lia.
Qed.

(* searching *)
Lemma linear_spec less l : linear_search less l <= length l /\ (forall j, j < linear_search less l -> less (nth j l 0) = true) /\
  (linear_search less l < length l -> less (nth (linear_search less l) l 0) = false).
Proof.
  induction l as [|x l IH]; cbn [linear_search length]; [repeat split; auto; intros; lia|]. destruct (less x) eqn:E.
  - destruct IH as (A & B & C). split; [lia|]. split; [|intros; apply C; lia]. intros [|j] Hj; auto. cbn. apply B. lia.
  - split; [lia|]. split; [intros; lia|auto].
Qed.
Definition monotone (less : nat -> bool) (l : list nat) : Prop :=
  forall i j, i <= j < length l -> less (nth i l 0) = false -> less (nth j l 0) = false.
Lemma search_loop_ok less l : monotone less l -> forall fuel s e s' e', s <= e <= length l ->
  (forall j, j < s -> less (nth j l 0) = true) -> (forall j, e <= j < length l -> less (nth j l 0) = false) ->
  search_loop fuel less l s e = (s', e') ->
  s' <= e' <= length l /\ (forall j, j < s' -> less (nth j l 0) = true) /\ (forall j, e' <= j < length l -> less (nth j l 0) = false).
Proof.
  intros Hm. induction fuel as [|fuel IH]; cbn [search_loop]; intros s e s' e' Hb Hs He E.
  - injection E as <- <-. auto.
  - destruct (Nat.ltb_spec binary_search_base (e - s)) as [Hlt|Hge]; [|injection E as <- <-; auto].
    assert (M : s <= s + (e - s) / 2 < e).
    { unfold binary_search_base in Hlt. assert ((e - s) / 2 < e - s) by (apply Nat.div_lt; lia). lia. }
    destruct (less (nth (s + (e - s) / 2) l 0)) eqn:El; cbn [negb] in E; revert E; apply IH; auto; try lia.
    + intros j Hj. destruct (less (nth j l 0)) eqn:Ej; auto. exfalso. rewrite (Hm j (s + (e - s) / 2)) in El; auto; [discriminate|lia].
    + intros j Hj. apply (Hm (s + (e - s) / 2)); auto; lia.
Qed.
Lemma binary_linear less l : monotone less l -> binary_search less l = linear_search less l.
Proof.
  intros Hm. unfold binary_search. destruct (search_loop (length l) less l 0 (length l)) as [s e] eqn:E.
  assert (X : s <= e <= length l /\ (forall j, j < s -> less (nth j l 0) = true) /\ (forall j, e <= j < length l -> less (nth j l 0) = false)).
  { eapply search_loop_ok; [exact Hm| | | |exact E]; intros; lia. }
  destruct X as (A & B & C). clear E.
  set (m := firstn (e - s) (skipn s l)). destruct (linear_spec less m) as (A1 & B1 & C1). destruct (linear_spec less l) as (A2 & B2 & C2).
  assert (Lm : length m = e - s) by (unfold m; rewrite firstn_length, skipn_length; lia).
  assert (Nm : forall j, j < e - s -> nth j m 0 = nth (s + j) l 0).
  { intros j Hj. unfold m. assert (X : nth j (firstn (e - s) (skipn s l)) 0 = nth j (skipn s l) 0).
    { rewrite <- (firstn_skipn (e - s) (skipn s l)) at 2. rewrite app_nth1; auto. rewrite firstn_length, skipn_length. lia. }
    rewrite X. rewrite <- (firstn_skipn s l) at 2. rewrite app_nth2 by (rewrite firstn_length; lia). rewrite firstn_length. f_equal. lia. }
  set (k := linear_search less m) in *. set (k' := linear_search less l) in *.
  assert (P1 : forall j, j < s + k -> less (nth j l 0) = true).
  { intros j Hj. destruct (Nat.lt_ge_cases j s) as [|Hj']; auto. specialize (B1 (j - s)). rewrite Nm in B1 by lia. replace (s + (j - s)) with j in B1 by lia. apply B1. lia. }
  assert (P2 : s + k < length l -> less (nth (s + k) l 0) = false).
  { intros Hk. destruct (Nat.lt_ge_cases k (length m)) as [Hkm|Hkm]; [|apply C; lia]. specialize (C1 Hkm). rewrite Nm in C1 by lia. auto. }
  destruct (Nat.lt_trichotomy (s + k) k') as [X|[X|X]]; auto; exfalso.
  - rewrite (B2 (s + k)) in P2 by lia. discriminate P2. lia.
  - rewrite (P1 k') in C2 by lia. discriminate C2. lia.
Qed.
Lemma decreasing_nth l : decreasing l -> forall i j, i < j < length l -> nth j l 0 < nth i l 0.
Proof.
  induction 1 as [|x l Hs IH Hf]; intros i j H; simpl in *; [lia|]. destruct j; [lia|]. destruct i.
  - rewrite Forall_forall in Hf. apply Hf. apply nth_In. lia.
  - apply IH. lia.
Qed.
Definition zb (b : bool) : Z := if b then 1%Z else 0%Z.
Lemma linear_has l w : decreasing l -> let k := linear_search (fun arg => w <? arg) l in
  (k <? length l) && (nth k l 0 =? w) = memb w l.
Proof.
  intros Hd k. destruct (linear_spec (fun arg => w <? arg) l) as (A & B & C). fold k in A, B, C. apply eq_true_iff_eq. rewrite andb_true_iff, Nat.ltb_lt, Nat.eqb_eq, memb_In. split.
  - intros [H1 H2]. rewrite <- H2. now apply nth_In.
  - intros H. apply (In_nth _ _ 0) in H as (j & Hj & E). destruct (Nat.lt_trichotomy j k) as [X|[X|X]].
    + apply B in X. apply Nat.ltb_lt in X. lia.
    + subst j. auto.
    + exfalso. specialize (C ltac:(lia)). apply Nat.ltb_ge in C. pose proof (@decreasing_nth l Hd k j). lia.
Qed.
Lemma has_spec l w : decreasing l -> has l w = zb (memb w l).
Proof. intros Hd. unfold has. rewrite (@linear_has l w Hd). reflexivity. Qed.
Lemma is_neighbor_spec l w : decreasing l -> is_neighbor l w = zb (memb w l).
Proof.
  intros Hd. unfold is_neighbor. rewrite binary_linear.
  - rewrite (@linear_has l w Hd). reflexivity.
  - intros i j Hij E. apply Nat.ltb_ge in E. apply Nat.ltb_ge. destruct (Nat.eq_dec i j) as [->|]; auto. pose proof (@decreasing_nth l Hd i j). lia.
Qed.

(* loops *)
Definition zsum {A} (a : A -> Z) (l : list A) : Z := fold_right (fun x t => (a x + t)%Z) 0%Z l.
Lemma zsum_app {A} (a : A -> Z) l l' : zsum a (l ++ l') = (zsum a l + zsum a l')%Z.
Proof. induction l as [|x l IH]; simpl; auto. rewrite IH. lia. Qed.
Lemma zsum_ext {A} (a b : A -> Z) l : (forall x, In x l -> a x = b x) -> zsum a l = zsum b l.
Proof. induction l as [|x l IH]; simpl; intros H; auto. rewrite H, IH; auto. Qed.
Lemma zsum_len {A B} (f : A -> list B) l : zsum (fun x => Z.of_nat (length (f x))) l = Z.of_nat (length (flat_map f l)).
Proof. induction l as [|x l IH]; simpl; auto. rewrite IH, app_length. lia. Qed.
Lemma zsum_concat {A} (a : A -> Z) ll : zsum a (concat ll) = zsum (zsum a) ll.
Proof. induction ll as [|l ll IH]; simpl; auto. rewrite zsum_app, IH. reflexivity. Qed.
Lemma zsum_map {A B} (f : A -> B) (a : B -> Z) l : zsum a (map f l) = zsum (fun x => a (f x)) l.
Proof. induction l as [|x l IH]; simpl; auto. now rewrite IH. Qed.
Lemma w64_add x y : w64 (w64 x + y) = w64 (x + y).
Proof. unfold w64. now rewrite Zplus_mod_idemp_l. Qed.
Lemma w64_idem x : w64 (w64 x) = w64 x.
Proof. unfold w64. apply Zmod_mod. Qed.
Lemma iter_app {A S} (f : A -> S -> option S) l l' s : iter f (l ++ l') s = match iter f l s with Some s' => iter f l' s' | None => None end.
Proof. revert s. induction l as [|x l IH]; intros s; simpl; auto. destruct (f x s); auto. Qed.
Lemma iter_flat {A B S} (f : B -> S -> option S) (h : A -> list B) l s : iter (fun u s => iter f (h u) s) l s = iter f (flat_map h l) s.
Proof. revert s. induction l as [|x l IH]; intros s; simpl; auto. rewrite iter_app. destruct (iter f (h x) s); auto. Qed.
Lemma iter_sum {A} (f : A -> Z -> option Z) a l : (forall x t, In x l -> w64 t = t -> f x t = Some (w64 (t + a x))) ->
  forall t, w64 t = t -> iter f l t = Some (w64 (t + zsum a l)).
Proof.
  induction l as [|x l IH]; intros H t Ht; simpl; [rewrite Z.add_0_r; now f_equal|]. rewrite H; auto; [|now left].
  rewrite IH; [|intros; apply H; auto; now right|apply w64_idem]. rewrite w64_add. do 2 f_equal. lia.
Qed.
Lemma iter_pair {A V} (I : V -> Prop) (f : A -> V * Z -> option (V * Z)) a l :
  (forall x v t, In x l -> I v -> w64 t = t -> exists v', f x (v, t) = Some (v', w64 (t + a x)) /\ I v') ->
  forall v t, I v -> w64 t = t -> exists v', iter f l (v, t) = Some (v', w64 (t + zsum a l)) /\ I v'.
Proof.
  induction l as [|x l IH]; intros H v t Hv Ht; simpl; [exists v; rewrite Z.add_0_r; split; auto; do 2 f_equal; auto|].
  destruct (H x v t) as (v1 & E & H1); auto; [now left|]. rewrite E.
  destruct (IH (fun x v t Hx => H x v t (or_intror Hx)) v1 (w64 (t + a x)) H1 (w64_idem _)) as (v2 & E2 & H2). exists v2. split; auto. rewrite E2, w64_add. do 3 f_equal. lia.
Qed.
Lemma NoDup_flat {A B} (f : A -> list B) l : NoDup l -> (forall x, In x l -> NoDup (f x)) -> (forall x y z, In z (f x) -> In z (f y) -> x = y) -> NoDup (flat_map f l).
Proof.
  intros Hl Hf Hd. induction Hl as [|x l Hx Hn IH]; simpl; [constructor|]. apply NoDup_app_iff. split; [apply Hf; now left|]. split; [apply IH; intros; apply Hf; now right|].
  intros z H1 H2. apply in_flat_map in H2 as (y & Hy & H2). rewrite (Hd _ _ _ H1 H2) in Hx. auto.
Qed.

(* counting *)
Lemma zsum_filter {A} (P : A -> bool) (a : A -> Z) l : zsum a (filter P l) = zsum (fun x => if P x then a x else 0%Z) l.
Proof. induction l as [|x l IH]; simpl; auto. destruct (P x); simpl; rewrite IH; lia. Qed.
Definition len {A} (l : list A) : Z := Z.of_nat (length l).
Lemma count_occ_flat (f : nat -> list nat) l x : (forall u, In u l -> NoDup (f u)) ->
  count_occ Nat.eq_dec (flat_map f l) x = length (filter (fun u => memb x (f u)) l).
Proof.
  induction l as [|u l IH]; intros H; simpl; auto. rewrite count_occ_app, IH by (intros; apply H; now right).
  destruct (memb x (f u)) eqn:E; simpl.
  - apply memb_In in E. pose proof (proj1 (NoDup_count_occ' Nat.eq_dec (f u)) (H u (or_introl eq_refl)) x E). lia.
  - assert (X : ~ In x (f u)) by (intros X; apply memb_In in X; congruence). apply (count_occ_not_In Nat.eq_dec) in X. lia.
Qed.
Lemma filter_and_len {A} (P Q : A -> bool) l : length (filter (fun x => P x && Q x) l) = length (filter P (filter Q l)).
Proof. induction l as [|x l IH]; simpl; auto. destruct (Q x) eqn:E; simpl; rewrite ?E, ?andb_true_r, ?andb_false_r; auto. destruct (P x); simpl; now rewrite IH. Qed.
Lemma count_without (P : nat -> bool) l u : NoDup l ->
  (Z.of_nat (length (filter (fun y => negb (y =? u)%nat && P y) l)) = Z.of_nat (length (filter P l)) - zb (memb u l && P u))%Z.
Proof.
  induction 1 as [|x l Hx Hn IH]; simpl; auto. destruct (Nat.eqb_spec x u) as [->|Hxu]; simpl.
  - rewrite (Nat.eqb_refl u). assert (M : memb u l = false) by (destruct (memb u l) eqn:E; auto; apply memb_In in E; contradiction).
    rewrite M in IH. cbn [orb andb zb] in *. destruct (P u); cbn [length zb]; rewrite ?IH; lia.
  - rewrite (proj2 (Nat.eqb_neq u x)) by auto. cbn [orb]. destruct (P x); cbn [length]; rewrite ?Nat2Z.inj_succ, IH; unfold memb; lia.
Qed.

Section Kowalik.
  Variable n : nat.
  Variable g dg : nat -> list nat.
  Variable rk : nat -> nat.
  Hypothesis Hn : (Z.of_nat n < 2 ^ 32)%Z.
  Hypothesis Hdec : forall v, v < n -> decreasing (g v).
  Hypothesis Hsym : forall u v, u < n -> In v (g u) -> v < n /\ In u (g v).
  Hypothesis Hirr : forall u, u < n -> ~ In u (g u).
  Hypothesis Hdg : forall v, v < n -> dg v = filter (fun x => rk v <? rk x) (g v).

  Definition N (i v : nat) : list nat := filter (fun x => i <? x) (g v).
  Lemma take_g i v : v < n -> take_gt i (g v) = N i v.
  Proof. intros Hv. now apply take_gt_filter, Hdec. Qed.
  Lemma N_NoDup i v : v < n -> NoDup (N i v).
  Proof. intros Hv. apply NoDup_filter', decreasing_NoDup. now apply Hdec. Qed.
  Lemma N_In i v x : In x (N i v) <-> In x (g v) /\ i < x.
  Proof. unfold N. rewrite filter_In, Nat.ltb_lt. tauto. Qed.
  Lemma N_lt i v x : v < n -> In x (N i v) -> x < n.
  Proof. intros Hv H. apply N_In in H as [H _]. now apply Hsym in H. Qed.

  Definition clean (V : fast_reset) : Prop := n <= vcap V /\ (forall x, vU V x = 0%Z) /\ vD V = [].
  (* after marking the wedges whose ends are listed in l *)
  Definition marked (cap : nat) (l : list nat) (V : fast_reset) : Prop :=
    vcap V = cap /\ (forall x, vU V x = Z.of_nat (count_occ Nat.eq_dec l x)) /\ NoDup (vD V) /\ (forall x, In x (vD V) <-> In x l).
  Lemma touch_ok cap l V w : (forall x, In x l -> x < cap) -> w < cap -> (Z.of_nat (count_occ Nat.eq_dec l w) + 1 < 2 ^ 32)%Z -> marked cap l V ->
    exists V', touch w V = Some V' /\ marked cap (l ++ [w]) V'.
  Proof.
    intros Hl Hw Hc (M1 & M2 & M3 & M4). unfold touch. rewrite M1. rewrite (proj2 (Nat.ltb_lt _ _) Hw).
    assert (W : w32 (vU V w + 1) = (vU V w + 1)%Z) by (unfold w32; apply Z.mod_small; rewrite M2; lia).
    assert (U' : forall x, fset (vU V) w (w32 (vU V w + 1)) x = Z.of_nat (count_occ Nat.eq_dec (l ++ [w]) x)).
    { intros x. rewrite count_occ_app. cbn [count_occ]. destruct (Nat.eq_dec w x) as [<-|Hx].
      - rewrite fset_same, W, M2. lia.
      - rewrite fset_other by auto. rewrite M2. lia. }
    destruct (Z.eqb_spec (vU V w) 0) as [E|E].
    - assert (Nw : ~ In w (vD V)).
      { intros X. apply M4 in X. apply (count_occ_In Nat.eq_dec) in X. rewrite M2 in E. lia. }
      assert (L : S (length (vD V)) <= cap).
      { replace cap with (length (seq 0 cap)) by apply seq_length. apply (@NoDup_incl_length _ (w :: vD V)); [now constructor|].
        intros x [<-|Hx]; apply in_seq; [lia|]. apply M4 in Hx. apply Hl in Hx. lia. }
      rewrite (proj2 (Nat.ltb_lt _ _) L). eexists. split; [reflexivity|]. split; [auto|]. split; [exact U'|]. cbn [vD]. split.
      + apply NoDup_app_iff. split; auto. split; [repeat constructor; auto|]. intros x Hx [<-|[]]. auto.
      + intros x. rewrite !in_app_iff, M4. tauto.
    - eexists. split; [reflexivity|]. split; [auto|]. split; [exact U'|]. cbn [vD]. split; auto. intros x. rewrite in_app_iff, M4. cbn. split; [tauto|].
      intros [H|[<-|[]]]; auto. apply (count_occ_In Nat.eq_dec). rewrite M2 in E. lia.
  Qed.
  Lemma touch_all cap l : forall l0 V, (forall x, In x (l0 ++ l) -> x < cap) -> (forall x, (Z.of_nat (count_occ Nat.eq_dec (l0 ++ l) x) < 2 ^ 32)%Z) -> marked cap l0 V ->
    exists V', iter touch l V = Some V' /\ marked cap (l0 ++ l) V'.
  Proof.
    induction l as [|w l IH]; intros l0 V Hl Hc HM; cbn [iter]; [exists V; rewrite app_nil_r; auto|].
    destruct (@touch_ok cap l0 V w) as (V1 & E & M1); auto.
    - intros x Hx. apply Hl, in_app_iff. auto.
    - apply Hl, in_app_iff. right. now left.
    - specialize (Hc w). rewrite count_occ_app in Hc. cbn [count_occ] in Hc. destruct (Nat.eq_dec w w); [lia|congruence].
    - rewrite E. destruct (IH (l0 ++ [w]) V1) as (V2 & E2 & M2); rewrite <- ?app_assoc; auto. exists V2. rewrite <- app_assoc in M2. auto.
  Qed.
  Definition wedge_ends (i : nat) : list nat := flat_map (N i) (N i i).
  Definition cnt (i x : nat) : nat := length (filter (fun u => memb x (N i u)) (N i i)).
  Lemma cnt_occ i x : i < n -> count_occ Nat.eq_dec (wedge_ends i) x = cnt i x.
  Proof. intros Hi. apply count_occ_flat. intros u Hu. apply N_NoDup. now apply (@N_lt i i). Qed.
  Lemma cnt_small i x : i < n -> (Z.of_nat (cnt i x) < 2 ^ 32)%Z.
  Proof.
    intros Hi. assert (X : cnt i x <= n); [|lia]. unfold cnt. etransitivity; [apply filter_len_le|].
    replace n with (length (seq 0 n)) by apply seq_length. apply NoDup_incl_length; [now apply N_NoDup|]. intros y Hy. apply in_seq. apply N_lt in Hy; auto; lia.
  Qed.
  Lemma flat_map_ext_in {A B} (f h : A -> list B) l : (forall x, In x l -> f x = h x) -> flat_map f l = flat_map h l.
  Proof. induction l as [|x l IH]; simpl; intros H; auto. rewrite H, IH; auto. Qed.
  Lemma mark_ok i V : i < n -> clean V -> exists V', mark g i V = Some V' /\ marked (vcap V) (wedge_ends i) V'.
  Proof.
    intros Hi (C1 & C2 & C3). unfold mark. rewrite iter_flat, take_g by auto.
    rewrite (@flat_map_ext_in _ _ (fun u => take_gt i (g u)) (N i)) by (intros u Hu; apply take_g; now apply (@N_lt i i)).
    apply (@touch_all (vcap V) (wedge_ends i) []).
    - intros x Hx. cbn in Hx. apply in_flat_map in Hx as (u & Hu & Hx). apply N_lt in Hx; [lia|]. now apply (@N_lt i i).
    - intros x. cbn [app]. rewrite cnt_occ by auto. now apply cnt_small.
    - split; auto. split; [intros; now rewrite C2|]. rewrite C3. split; [constructor|]. intros; tauto.
  Qed.
  Lemma add_all d l : NoDup l -> forall V, (forall w, In w l -> w < vcap V) ->
    exists V', iter (add_to d) l V = Some V' /\ vcap V' = vcap V /\ vD V' = vD V /\ (forall x, vU V' x = if memb x l then w32 (vU V x + d) else vU V x).
  Proof.
    induction 1 as [|w l Hw Hnd IH]; intros V Hl; cbn [iter]; [exists V; auto|].
    unfold add_to at 1. rewrite (proj2 (Nat.ltb_lt _ _) (Hl w (or_introl eq_refl))).
    match goal with |- context [iter (add_to d) l ?V1] => destruct (IH V1) as (V' & E & A & B & C) end; [intros; apply Hl; now right|].
    exists V'. split; auto. split; auto. split; auto. intros x. rewrite C. cbn [vU]. unfold memb in *. cbn [existsb]. destruct (Nat.eqb_spec x w) as [->|Hx]; cbn [orb].
    - assert (M : existsb (Nat.eqb w) l = false) by (destruct (existsb (Nat.eqb w) l) eqn:Ee; auto; apply memb_In in Ee; contradiction). rewrite M. now rewrite fset_same.
    - rewrite fset_other by auto. reflexivity.
  Qed.

  (* the fifth vertices that close i, u, w, x to a cycle *)
  Definition fifth (i u w x : nat) : list nat := filter (fun y => negb (y =? u) && (negb (y =? w) && memb x (N i y))) (N i i).
  Definition paths_x (i u w : nat) : list nat := filter (fun x => negb (x =? u)) (filter (fun x => i <? x) (dg w)).
  Definition tuples (i : nat) : list tup :=
    flat_map (fun u => flat_map (fun w => flat_map (fun x => map (fun y => (i, u, w, x, y)) (fifth i u w x)) (paths_x i u w)) (N i u)) (N i i).
  Lemma fifth_count i u w x : i < n -> In u (N i i) -> In w (N i u) -> In x (dg w) -> i < x ->
    Z.of_nat (length (fifth i u w x)) = (Z.of_nat (cnt i x) - zb (memb x (N i u)) - zb (memb w (g i)))%Z.
  Proof.
    intros Hi Hu Hw Hx Hix. assert (Hun : u < n) by now apply (@N_lt i i). assert (Hwn : w < n) by now apply (@N_lt i u).
    rewrite Hdg in Hx by auto. apply filter_In in Hx as [Hx _].
    unfold fifth. rewrite (@count_without (fun y => negb (y =? w) && memb x (N i y))) by now apply N_NoDup.
    rewrite (@count_without (fun y => memb x (N i y))) by now apply N_NoDup. fold (cnt i x).
    apply N_In in Hw as [Hw Hiw]. assert (u <> w) by (intros <-; now apply (Hirr Hun)). rewrite (proj2 (Nat.eqb_neq u w)) by auto. cbn [negb andb].
    rewrite (proj2 (memb_In u (N i i)) Hu). cbn [andb]. assert (Mx : memb x (N i w) = true) by (apply memb_In, N_In; auto). rewrite Mx, andb_true_r.
    replace (memb w (N i i)) with (memb w (g i)); [lia|]. apply eq_true_iff_eq. rewrite !memb_In, N_In. tauto.
  Qed.
  Lemma take_dg i w : w < n -> take_gt i (dg w) = filter (fun x => i <? x) (dg w).
  Proof. intros Hw. apply take_gt_filter. rewrite Hdg by auto. now apply decreasing_filter, Hdec. Qed.
  Lemma visit_ok i u V t : i < n -> In u (N i i) -> n <= vcap V -> (forall x, vU V x = Z.of_nat (cnt i x)) -> w64 t = t ->
    exists V', visit_u g dg i u (V, t) =
        Some (V', w64 (t + len (flat_map (fun w => flat_map (fun x => map (fun y => (i, u, w, x, y)) (fifth i u w x)) (paths_x i u w)) (N i u)))) /\
      vcap V' = vcap V /\ vD V' = vD V /\ (forall x, vU V' x = Z.of_nat (cnt i x)).
  Proof.
    intros Hi Hu Hcap HU Ht. assert (Hun : u < n) by now apply (@N_lt i i). unfold visit_u. rewrite take_g by auto.
    assert (Hb : forall w, In w (N i u) -> w < vcap V) by (intros w Hw; apply N_lt in Hw; auto; lia).
    destruct (@add_all (-1) (N i u) (@N_NoDup i u Hun) V Hb) as (V1 & E1 & A1 & B1 & C1). rewrite E1.
    assert (Hc : forall x, memb x (N i u) = true -> 1 <= cnt i x).
    { intros x Hx. unfold cnt. assert (X : In u (filter (fun u => memb x (N i u)) (N i i))) by (apply filter_In; auto). destruct (filter _ _); [destruct X|cbn; lia]. }
    assert (U1 : forall x, vU V1 x = (Z.of_nat (cnt i x) - zb (memb x (N i u)))%Z).
    { intros x. rewrite C1, HU. destruct (memb x (N i u)) eqn:M; cbn [zb]; [|lia]. specialize (Hc x M). pose proof (@cnt_small i x Hi). unfold w32. rewrite Z.mod_small; lia. }
    match goal with |- context [iter ?f (N i u) t] => assert (E2 : iter f (N i u) t = Some (w64 (t + zsum (fun w => len (flat_map (fun x => map (fun y => (i, u, w, x, y)) (fifth i u w x)) (paths_x i u w))) (N i u)))) end.
    { apply iter_sum; auto. clear t Ht. intros w t Hw Ht. assert (Hwn : w < n) by now apply (@N_lt i u). unfold add_paths. rewrite take_dg by auto.
      match goal with |- iter ?f ?l t = _ => rewrite (@iter_sum _ f (fun x => if negb (x =? u) then len (fifth i u w x) else 0%Z) l) end; auto.
      - do 3 f_equal. unfold len. rewrite <- zsum_len. unfold paths_x. rewrite (zsum_filter (fun x => negb (x =? u))). apply zsum_ext. intros x Hx. destruct (x =? u); cbn [negb]; auto. now rewrite map_length.
      - clear t Ht. intros x t Hx Ht. apply filter_In in Hx as [Hx Hix]. apply Nat.ltb_lt in Hix. destruct (Nat.eqb_spec x u) as [->|Hxu]; cbn [negb]; [rewrite Z.add_0_r; now f_equal|].
        assert (Hxn : x < n). { rewrite Hdg in Hx by auto. apply filter_In in Hx as [Hx _]. now apply Hsym in Hx. }
        rewrite A1. rewrite (proj2 (Nat.ltb_lt x (vcap V))) by lia. rewrite is_neighbor_spec by now apply Hdec. do 3 f_equal.
        pose proof (@fifth_count i u w x Hi Hu Hw Hx Hix) as F. rewrite U1. unfold len. rewrite F. unfold w32. apply Z.mod_small. pose proof (@cnt_small i x Hi).
        split; [rewrite <- F; lia|]. destruct (memb x (N i u)), (memb w (g i)); cbn [zb]; lia. }
    rewrite E2. assert (Hb' : forall w, In w (N i u) -> w < vcap V1) by (rewrite A1; auto).
    destruct (@add_all 1 (N i u) (@N_NoDup i u Hun) V1 Hb') as (V2 & E3 & A3 & B3 & C3). rewrite E3. exists V2. split; [do 4 f_equal; unfold len; now rewrite <- zsum_len|].
    split; [congruence|]. split; [congruence|]. intros x. rewrite C3, U1. destruct (memb x (N i u)); cbn [zb]; [|lia]. pose proof (@cnt_small i x Hi). unfold w32. rewrite Z.mod_small; lia.
  Qed.
  Lemma reset_ok V l : (forall x, vU V x <> 0%Z -> In x l) -> forall x, fold_left (fun U w => fset U w 0%Z) l (vU V) x = 0%Z.
  Proof.
    intros H x. assert (X : forall l U, (U x <> 0%Z -> In x l) -> fold_left (fun U w => fset U w 0%Z) l U x = 0%Z).
    { clear. induction l as [|w l IH]; intros U H; cbn [fold_left]; [destruct (Z.eq_dec (U x) 0); auto; destruct (H n)|]. apply IH. intros Hx.
      destruct (Nat.eq_dec x w) as [->|Hw]; [rewrite fset_same in Hx; congruence|]. rewrite fset_other in Hx by auto. destruct (H Hx); [congruence|auto]. }
    apply X. apply H.
  Qed.
  Lemma vertex_ok V i : i < n -> clean V -> exists V', count_vertex g dg V i = Some (w64 (len (tuples i)), V') /\ clean V' /\ vcap V' = vcap V.
  Proof.
    intros Hi HV. unfold count_vertex. destruct (Nat.eqb_spec (length (g i)) 0) as [E|E].
    - apply length_zero_iff_nil in E. exists V. split; auto. unfold tuples. replace (N i i) with (@nil nat) by (unfold N; now rewrite E). reflexivity.
    - destruct (@mark_ok i V Hi HV) as (V1 & E1 & M1 & M2 & M3 & M4). rewrite E1. rewrite take_g by auto.
      destruct (@iter_pair nat fast_reset (fun V' => vcap V' = vcap V /\ vD V' = vD V1 /\ forall x, vU V' x = Z.of_nat (cnt i x)) (visit_u g dg i)
        (fun u => len (flat_map (fun w => flat_map (fun x => map (fun y => (i, u, w, x, y)) (fifth i u w x)) (paths_x i u w)) (N i u))) (N i i)) with (v := V1) (t := 0%Z) as (V2 & E2 & I1 & I2 & I3).
      + intros u V' t Hu (I1 & I2 & I3) Ht. destruct (@visit_ok i u V' t) as (V2 & E2 & A & B & C); auto; [rewrite I1; apply HV|]. exists V2. split; auto. rewrite A, B, I1, I2. auto.
      + split; auto. split; auto. intros x. now rewrite M2, cnt_occ.
      + reflexivity.
      + rewrite E2. exists (reset V2). split.
        * do 3 f_equal. unfold len. rewrite zsum_len. reflexivity.
        * split; [|auto]. split; [cbn; rewrite I1; apply HV|]. split; [|reflexivity]. cbn [reset vU]. apply reset_ok. intros x Hx. rewrite I2. apply M4. apply (count_occ_In Nat.eq_dec). rewrite I3 in Hx.
          rewrite cnt_occ by auto. lia.
  Qed.
  Lemma range_ok cap l V t : (forall i, In i l -> i < n) -> clean V -> vcap V = cap -> w64 t = t ->
    exists V', count_range g dg l (V, t) = Some (V', w64 (t + len (flat_map tuples l))) /\ clean V' /\ vcap V' = cap.
  Proof.
    intros Hl HV Hcap Ht. destruct (@iter_pair nat fast_reset (fun V => clean V /\ vcap V = cap)
      (fun i (s : fast_reset * Z) => let (V, c) := s in match count_vertex g dg V i with None => None | Some (temp, V') => Some (V', w64 (c + temp)) end) (fun i => len (tuples i)) l) with (v := V) (t := t) as (V' & E & H1 & H2); auto.
    - intros i V1 t1 Hi [H1 H2] Ht1. destruct (@vertex_ok V1 i (Hl i Hi) H1) as (V2 & E & H3 & H4). rewrite E. exists V2. split; [|split; congruence].
      do 2 f_equal. unfold w64. now rewrite Zplus_mod_idemp_r.
    - exists V'. split; auto. unfold count_range. rewrite E. unfold len. now rewrite zsum_len.
  Qed.
  Theorem serial_ok : serial g dg n = Some (w64 (len (flat_map tuples (seq 0 n)))).
  Proof.
    unfold serial. destruct (@range_ok n (seq 0 n) (alloc n None) 0%Z) as (V & E & _); auto.
    - intros i Hi. apply in_seq in Hi. lia.
    - split; auto.
    - rewrite E. reflexivity.
  Qed.
  (* blocks *)
  Definition clean_workers (ws : nat -> option fast_reset) : Prop := forall p V, ws p = Some V -> clean V.
  Lemma blocks_ok nb range who order ws : (forall b i, b < nb -> In i (range b) -> i < n) -> Permutation order (seq 0 nb) ->
    clean_workers ws -> concat (map range (seq 0 nb)) = seq 0 n ->
    exists ws', run_blocks g dg n nb range who order ws = Some (w64 (len (flat_map tuples (seq 0 n))), ws') /\ clean_workers ws' /\
      (forall p V, ws p = Some V -> exists V', ws' p = Some V' /\ vcap V' = vcap V) /\
      (forall p V, ws' p = Some V -> ws p = None -> vcap V = n).
  Proof.
    intros Hr Hp Hws Hcat. unfold run_blocks. assert (Hnd : NoDup order) by (eapply Permutation_NoDup; [apply Permutation_sym; eauto|apply seq_NoDup]).
    set (a := fun b => w64 (len (flat_map tuples (range b)))).
    assert (X : forall order done ws1 counts, (forall b, In b order -> b < nb) -> NoDup (done ++ order) -> clean_workers ws1 -> (forall b, counts b = if memb b done then a b else 0%Z) ->
      exists ws' counts', iter (run_block g dg n range who) order (ws1, counts) = Some (ws', counts') /\ clean_workers ws' /\ (forall b, counts' b = if memb b (done ++ order) then a b else 0%Z) /\
      (forall p V, ws1 p = Some V -> exists V', ws' p = Some V' /\ vcap V' = vcap V) /\ (forall p V, ws' p = Some V -> ws1 p = None -> vcap V = n)).
    { clear Hp Hnd order Hws ws. induction order as [|b order IH]; intros done ws1 counts Hord Hnd Hws Hc; cbn [iter].
      - exists ws1, counts. rewrite app_nil_r. split; auto. split; auto. split; auto. split; [eauto|congruence].
      - assert (Hb : ~ In b done) by (intros X; apply NoDup_app_iff in Hnd as (_ & _ & Hd); apply (Hd b X); now left).
        assert (HV : clean (alloc n (ws1 (who b)))) by (destruct (ws1 (who b)) eqn:E; [now apply (Hws (who b))|split; auto]).
        destruct (@range_ok (vcap (alloc n (ws1 (who b)))) (range b) (alloc n (ws1 (who b))) (counts b)) as (V & E & H1 & H2); auto.
        + intros i Hi. apply (Hr b); auto. apply Hord. now left.
        + rewrite Hc. destruct (memb b done) eqn:M; [apply memb_In in M; contradiction|reflexivity].
        + unfold run_block at 1. rewrite E. destruct (IH (done ++ [b]) (fset ws1 (who b) (Some V)) (fset counts b (w64 (counts b + len (flat_map tuples (range b)))))) as (ws' & counts' & E' & I1 & I2 & I3 & I4).
          * intros c Hc'. apply Hord. now right.
          * now rewrite <- app_assoc.
          * intros p W Hp. unfold fset in Hp. destruct (p =? who b); [injection Hp as <-; auto|now apply (Hws p)].
          * intros c. unfold memb. rewrite existsb_app. cbn [existsb]. rewrite orb_false_r. destruct (Nat.eqb_spec c b) as [->|Hcb].
            -- rewrite fset_same, orb_true_r. rewrite Hc. destruct (memb b done) eqn:M; [apply memb_In in M; contradiction|reflexivity].
            -- rewrite fset_other, orb_false_r by auto. apply Hc.
          * exists ws', counts'. split; auto. split; auto. rewrite <- app_assoc in I2. split; auto. split.
            -- intros p W Hp. destruct (Nat.eq_dec p (who b)) as [->|Hpb].
               ++ destruct (I3 (who b) V) as (V' & Ep & Hcap); [apply fset_same|]. exists V'. split; auto. rewrite Hcap, H2, Hp. reflexivity.
               ++ apply I3. now rewrite fset_other.
            -- intros p W Hp Hnone. destruct (Nat.eq_dec p (who b)) as [->|Hpb].
               ++ destruct (I3 (who b) V) as (V' & Ep & Hcap); [apply fset_same|]. rewrite Hp in Ep. injection Ep as <-. rewrite Hcap, H2, Hnone. reflexivity.
               ++ apply (I4 p); auto. now rewrite fset_other. }
    destruct (X order [] ws (fun _ => 0%Z)) as (ws' & counts & E & H1 & H2 & H3 & H4); auto.
    { intros b Hb. apply (Permutation_in _ Hp), in_seq in Hb. lia. }
    rewrite E. exists ws'. split; [|auto]. do 2 f_equal.
    assert (Y : forall l t, (forall b, In b l -> In b order) -> w64 t = t -> fold_left (fun t b => w64 (t + counts b)) l t = w64 (t + zsum (fun b => len (flat_map tuples (range b))) l)).
    { induction l as [|b l IH]; intros t Hl Ht; cbn [fold_left zsum fold_right]; [rewrite Z.add_0_r; auto|]. rewrite IH; [|intros; apply Hl; now right|apply w64_idem].
      rewrite w64_add. rewrite H2. assert (M : memb b ([] ++ order) = true) by (apply memb_In; apply Hl; now left). rewrite M. unfold a, w64. fold (zsum (fun b => len (flat_map tuples (range b))) l).
      replace (t + len (flat_map tuples (range b)) mod 2 ^ 64 + zsum (fun b => len (flat_map tuples (range b))) l)%Z with (len (flat_map tuples (range b)) mod 2 ^ 64 + (t + zsum (fun b => len (flat_map tuples (range b))) l))%Z by lia.
      rewrite Zplus_mod_idemp_l. f_equal. lia. }
    rewrite Y; auto.
    - rewrite Z.add_0_l. f_equal. rewrite <- Hcat. unfold len. rewrite <- (zsum_len tuples), zsum_concat, zsum_map. apply zsum_ext. intros b Hb. now rewrite <- zsum_len.
    - intros b Hb. eapply Permutation_in; [apply Permutation_sym; exact Hp|auto].
  Qed.

  (* the tuples counted are one listing of every cycle *)
  Let E u v := In v (g u).
  Lemma tuples_In t : In t (flat_map tuples (seq 0 n)) <-> closed_walk n E t /\ kowalik rk t = true.
  Proof.
    destruct t as [[[[a b] c] d] e]. unfold tuples, paths_x, fifth. rewrite in_flat_map. cbn [closed_walk kowalik least]. rewrite !andb_true_iff, !Nat.ltb_lt, nodup5. unfold E. split.
    - intros (i & Hi & H). apply in_seq in Hi. apply in_flat_map in H as (u & Hu & H). apply in_flat_map in H as (w & Hw & H). apply in_flat_map in H as (x & Hx & H).
      apply in_map_iff in H as (y & Ey & Hy). injection Ey as -> -> -> -> ->. assert (Ha : a < n) by lia. clear Hi.
      apply filter_In in Hy as [Hy Py]. rewrite !andb_true_iff, !negb_true_iff, !Nat.eqb_neq, memb_In in Py. destruct Py as (Y1 & Y2 & Y3).
      apply filter_In in Hx as [Hx Px]. rewrite negb_true_iff, Nat.eqb_neq in Px. apply filter_In in Hx as [Hx Lx]. apply Nat.ltb_lt in Lx.
      apply N_In in Hu as [Hu Lu], Hw as [Hw Lw], Hy as [Hy Ly], Y3 as [Y3 Ly3]. pose proof (Hsym Ha Hu) as [Hb Hu']. pose proof (Hsym Hb Hw) as [Hc Hw']. rewrite Hdg in Hx by auto. apply filter_In in Hx as [Hx Rx].
      apply Nat.ltb_lt in Rx. pose proof (Hsym Hc Hx) as [Hd Hx']. pose proof (Hsym Ha Hy) as [He Hy']. pose proof (Hsym He Y3) as [_ Y3'].
      assert (b <> c) by (intros <-; now apply (Hirr Hb)). assert (c <> d) by (intros <-; now apply (Hirr Hc)). assert (d <> e) by (intros <-; now apply (Hirr Hd)).
      repeat split; auto; lia.
    - intros (((Ha & Hb & Hc & Hd & He) & D & H1 & H2 & H3 & H4 & H5) & (((L1 & L2) & L3) & L4) & R).
      pose proof (Hsym He H5) as [_ H5']. pose proof (Hsym Hd H4) as [_ H4'].
      exists a. split; [apply in_seq; lia|]. apply in_flat_map. exists b. split; [apply N_In; auto|]. apply in_flat_map. exists c. split; [apply N_In; auto|]. apply in_flat_map. exists d. split.
      + apply filter_In. split; [apply filter_In; split; [|now apply Nat.ltb_lt]|apply negb_true_iff, Nat.eqb_neq; tauto || (intros ->; tauto)]. rewrite Hdg by auto. apply filter_In. split; auto. now apply Nat.ltb_lt.
      + apply in_map_iff. exists e. split; auto. apply filter_In. split; [apply N_In; auto|]. rewrite !andb_true_iff, !negb_true_iff, !Nat.eqb_neq, memb_In. split; [intros ->; tauto|]. split; [intros ->; tauto|]. apply N_In. auto.
  Qed.
  Lemma tuples_NoDup : NoDup (flat_map tuples (seq 0 n)).
  Proof.
    apply NoDup_flat; [apply seq_NoDup| |].
    - intros i Hi. apply in_seq in Hi. assert (Hi' : i < n) by lia. unfold tuples. apply NoDup_flat; [now apply N_NoDup| |].
      + intros u Hu. assert (Hun : u < n) by now apply (@N_lt i i). apply NoDup_flat; [now apply N_NoDup| |].
        * intros w Hw. assert (Hwn : w < n) by now apply (@N_lt i u). apply NoDup_flat.
          -- unfold paths_x. apply NoDup_filter', NoDup_filter'. rewrite Hdg by auto. apply NoDup_filter', decreasing_NoDup. now apply Hdec.
          -- intros x Hx. apply FinFun.Injective_map_NoDup; [intros y y' Ey; congruence|]. unfold fifth. apply NoDup_filter'. now apply N_NoDup.
          -- intros x x' z Hz Hz'. apply in_map_iff in Hz as (y & <- & _), Hz' as (y' & Ey & _). congruence.
        * intros w w' z Hz Hz'. apply in_flat_map in Hz as (x & _ & Hz), Hz' as (x' & _ & Hz'). apply in_map_iff in Hz as (y & <- & _), Hz' as (y' & Ey & _). congruence.
      + intros u u' z Hz Hz'. apply in_flat_map in Hz as (w & _ & Hz), Hz' as (w' & _ & Hz'). apply in_flat_map in Hz as (x & _ & Hz), Hz' as (x' & _ & Hz'). apply in_map_iff in Hz as (y & <- & _), Hz' as (y' & Ey & _). congruence.
    - intros i i' z Hz Hz'. apply in_flat_map in Hz as (u & _ & Hz), Hz' as (u' & _ & Hz'). apply in_flat_map in Hz as (w & _ & Hz), Hz' as (w' & _ & Hz').
      apply in_flat_map in Hz as (x & _ & Hz), Hz' as (x' & _ & Hz'). apply in_map_iff in Hz as (y & <- & _), Hz' as (y' & Ey & _). congruence.
  Qed.
  Lemma kowalik_count T : (forall u v, u < n -> v < n -> rk u = rk v -> u = v) -> NoDup T -> (forall t, In t T <-> closed_walk n E t) ->
    10 * length (flat_map tuples (seq 0 n)) = length T.
  Proof.
    intros Hr HT TIn. rewrite <- (@chosen_count n E Hsym T HT TIn (kowalik rk)) by (intros; eapply kowalik_hits; eauto). f_equal.
    apply Permutation_length, NoDup_Permutation; [apply tuples_NoDup|now apply NoDup_filter'|]. intros t. rewrite tuples_In, filter_In, TIn. tauto.
  Qed.
End Kowalik.
