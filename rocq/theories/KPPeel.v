(* Clique peeling: the rounds of Peel. *)
From Coq Require Import Permutation Sorted.
From Verif Require Import Base ListUtil ISModel ISSpec BKModel BKSpec BKProofs BKProps KCModel KCProofs CQModel CQSpec CQRec CQSetup CQCount CQCliques CQFinal KPModel KPSpec KPCount.
Unset Strict Implicit.

(* the counts handed out by the recursion are positive *)
Lemma hrec_pos half edges relabel split r : forall k_idx level path labels S,
  Forall (fun c => 0 < snd c) (snd (hrec half edges relabel split r k_idx level path labels S)).
Proof.
  induction r as [|r IH]; intros k_idx level path labels S; cbn [hrec]; [constructor|]. destruct (length S =? 0); [constructor|].
  assert (Hopt : forall x c, Forall (fun c : nat * nat => 0 < snd c) (if 0 <? c then [(relabel x, c)] else [])).
  { intros x c. destruct (Nat.ltb_spec 0 c); repeat constructor; auto. }
  set (L := set_all labels S k_idx). destruct (r =? 0).
  - cbn [snd]. apply Forall_forall. intros c Hc. apply in_flat_map in Hc as (v & _ & Hc). apply in_app_iff in Hc as [Hc|Hc].
    + apply in_map_iff in Hc as (w & <- & _). simpl. lia.
    + specialize (Hopt v (length (filter (fun w => has_label half (L w) k_idx) (edges v)))). rewrite Forall_forall in Hopt. auto.
  - destruct ((level <? k_idx) || (length S <? 2)).
    + assert (HF : forall T acc, Forall (fun c : nat * nat => 0 < snd c) (snd acc) -> Forall (fun c : nat * nat => 0 < snd c) (snd (fold_left (fun acc v =>
            let '(tot, L, cl) := acc in
            if r <? length (filter (fun w => has_label half (L w) k_idx) (edges v)) then
              let '(c, L', cl') := hrec half edges relabel split r (k_idx + 1) level (v :: path) L (filter (fun w => has_label half (L w) k_idx) (edges v)) in
              (tot + c, L', cl ++ cl' ++ (if 0 <? c then [(relabel v, c)] else []))
            else acc) T acc))).
      { induction T as [|v T IHT]; intros [[tot L1] cl] Ha; cbn [fold_left]; auto. apply IHT. destruct (r <? _); auto.
        pose proof (IH (k_idx + 1) level (v :: path) L1 (filter (fun w => has_label half (L1 w) k_idx) (edges v))) as X.
        destruct (hrec _ _ _ _ _ _ _ _ _ _) as [[c L'] cl']. cbn [snd] in *. apply Forall_app. split; auto. apply Forall_app. auto. }
      specialize (HF S (0, L, []) ltac:(constructor)). destruct (fold_left _ S _) as [[tot L'] cl]. exact HF.
    + cbn [snd]. apply Forall_forall. intros x Hx. apply in_flat_map in Hx as (y & Hy & Hx). apply in_map_iff in Hy as (g & <- & _).
      assert (HF : forall T acc, Forall (fun c : nat * nat => 0 < snd c) (snd acc) -> Forall (fun c : nat * nat => 0 < snd c) (snd (fold_left (fun acc v =>
            let '(tot, L2, cl) := acc in
            if r <? length (filter (fun w => has_label half (L w) k_idx) (edges v)) then
              let '(c, L2', cl') := hrec half edges relabel split r 1 0 (v :: path) L2 (filter (fun w => has_label half (L w) k_idx) (edges v)) in
              (tot + c, L2', cl ++ cl' ++ (if 0 <? c then [(relabel v, c)] else []))
            else acc) T acc))).
      { induction T as [|v T IHT]; intros [[tot L1] cl] Ha; cbn [fold_left]; auto. apply IHT. destruct (r <? _); auto.
        pose proof (IH 1 0 (v :: path) L1 (filter (fun w => has_label half (L w) k_idx) (edges v))) as X.
        destruct (hrec _ _ _ _ _ _ _ _ _ _) as [[c L'] cl']. cbn [snd] in *. apply Forall_app. split; auto. apply Forall_app. auto. }
      specialize (HF g (0, (fun _ => 0), []) ltac:(constructor)). rewrite Forall_forall in HF. auto.
Qed.
Lemma total_pos cl v c : In (v, c) cl -> c <= total cl v.
Proof.
  intros H. apply in_split in H as (l1 & l2 & ->). rewrite total_app. change ((v, c) :: l2) with ([(v, c)] ++ l2). rewrite total_app, total_one, Nat.eqb_refl. lia.
Qed.
Lemma total_none cl v : ~ In v (map fst cl) -> total cl v = 0.
Proof.
  intros H. unfold total. rewrite filter_none; auto. intros [x c] Hx. apply Nat.eqb_neq. simpl. intros ->. apply H. apply in_map_iff. now exists (v, c).
Qed.
Lemma occs_pos u cs : 0 < occs id_ u cs -> exists c, In c cs /\ In u c.
Proof.
  induction cs as [|c cs IH]; [unfold occs; simpl; lia|]. unfold occs. cbn [map list_sum fold_right]. fold (list_sum (map (fun c => occ u (map (fun x => x) c)) cs)). fold (occs id_ u cs).
  rewrite map_id. intros H. destruct (has c u) eqn:E; [exists c; split; [now left|now apply has_In]|]. destruct IH as (d & Hd & Hu).
  - apply has_false in E. unfold occ in H. rewrite filter_none in H; [simpl in H; auto|]. intros x Hx. apply Nat.eqb_neq. intros ->. auto.
  - exists d. split; auto. now right.
Qed.
(* the serial counters *)
Lemma touch_ok cl : let X := fold_left touch cl ((fun _ => 0), []) in
  (forall v, fst X v = total cl v) /\ (forall v, In v (snd X) <-> In v (map fst cl)).
Proof.
  cbv zeta. induction cl as [|[x c] cl IH] using rev_ind; [split; [reflexivity|tauto]|]. rewrite fold_left_app. destruct (fold_left touch cl _) as [ppc idxs]. destruct IH as [A B].
  cbn [fold_left touch fst snd] in *. rewrite map_app. cbn [map fst]. split.
  - intros v. rewrite total_app, total_one. destruct (Nat.eqb_spec x v) as [->|Hne]; [rewrite fset_same, A; lia|]. rewrite fset_other by auto. rewrite A. lia.
  - intros v. rewrite in_app_iff. cbn [In]. destruct (Nat.eqb_spec (ppc x) 0) as [E|E]; [rewrite in_app_iff, B; cbn [In]; tauto|]. rewrite B. split; [tauto|].
    intros [X|[<-|[]]]; auto. destruct (in_dec Nat.eq_dec x (map fst cl)) as [|Hn]; auto. exfalso. apply E. rewrite A. now apply total_none.
Qed.
Lemma touch_nodup cl : Forall (fun c => 0 < snd c) cl -> NoDup (snd (fold_left touch cl ((fun _ => 0), []))).
Proof.
  induction cl as [|[x c] cl IH] using rev_ind; intros H; [constructor|]. apply Forall_app in H as [H Hc]. specialize (IH H). pose proof (touch_ok cl) as [A B].
  rewrite fold_left_app. destruct (fold_left touch cl _) as [ppc idxs]. cbn [fold_left touch fst snd] in *. destruct (Nat.eqb_spec (ppc x) 0) as [E|E]; auto.
  apply NoDup_app_iff. split; auto. split; [repeat constructor; auto|]. intros v Hv [<-|[]]. apply B in Hv. apply in_map_iff in Hv as ([y d] & Ey & Hv). simpl in Ey. subst y.
  rewrite A in E. apply total_pos in Hv as X. rewrite Forall_forall in H. specialize (H _ Hv). simpl in H. lia.
Qed.

Lemma usub_wide wide a b : b <= a -> a <= wide -> usub wide a b = a - b.
Proof. intros H1 H2. unfold usub. replace (a + (wide + 1) - b) with ((a - b) + 1 * (wide + 1)) by lia. rewrite Nat.mod_add by lia. apply Nat.mod_small. lia. Qed.
(* the structure of buckets *)
Lemma next_num inc o d fuel : forall s b L s', next_bucket inc o fuel d s = Ret (Some (b, L)) s' -> b = cur_num inc o s'.
Proof.
  induction fuel as [|fuel IH]; intros s b L s'; cbn [next_bucket]; [discriminate|]. destruct ((length (bucket s (cur s)) =? 0) && (0 <? nelm s)).
  - destruct (advance inc o d s) as [s1|]; [|discriminate]. apply IH.
  - destruct (nelm s =? 0); [discriminate|]. destruct (filter _ _); [apply IH|]. intros E. injection E as <- _ <-. reflexivity.
Qed.
Lemma update_frame l : forall s, range (update_seq l s) = range s /\ cur (update_seq l s) = cur s.
Proof.
  unfold update_seq. induction l as [|[v [b|]] l IH]; intros s; cbn [fold_left push snd]; auto. destruct (IH {| bk := lset (bk s) b (bucket s b ++ [fst (v, Some b)]); cur := cur s; range := range s; nelm := nelm s + 1 |}) as [A B]. auto.
Qed.
Lemma bucket2_frame inc o null s s' a b : range s = range s' -> cur s = cur s' -> get_bucket2 inc o null s a b = get_bucket2 inc o null s' a b.
Proof. intros H1 H2. unfold get_bucket2. now rewrite H1, H2. Qed.
Lemma bucket2_stay o null s d : 0 < o -> cur s < o -> d < null -> d <> cur_num true o s -> get_bucket2 true o null s d d = None.
Proof.
  intros Ho Hc Hd Hne. unfold get_bucket2. destruct (to_range true o (range s) d) as [nb|] eqn:E; auto. rewrite Nat.eqb_refl, (proj2 (Nat.eqb_neq d null)) by lia. cbn [orb negb].
  destruct (Nat.eqb_spec nb (cur s)) as [->|]; auto. exfalso. apply Hne. unfold to_range in E. unfold cur_num. destruct (Nat.ltb_spec d (range s * o)) as [|H1]; [discriminate|]. injection E as E.
  destruct (Nat.ltb_spec d ((range s + 1) * o)) as [H2|H2]; [|lia]. rewrite <- E. assert (X : d = (d - range s * o) + range s * o) by lia. rewrite X at 2. rewrite Nat.mod_add by lia. rewrite Nat.mod_small by lia. lia.
Qed.

Section Peel.
  Variables half wide n : nat.
  Variable outn : nat -> list nat.
  Hypothesis HG : sgraph n outn.
  Variable rank : nat -> nat.
  Hypothesis HR : is_rank n rank.
  Variable K : nat.
  Hypothesis HK : 3 <= K <= half + 1.
  Variable label : bool.
  Notation cnt := (cliques_at n outn K).
  Notation core := (clique_core n outn K).
  Notation coreness := (clique_coreness n outn K).

  Lemma clique_lt c v : In c (cliques n outn K) -> In v c -> v < n.
  Proof. intros H Hv. apply filter_In in H as [H _]. apply subsets_iff in H as (_ & _ & H); [|apply seq_inc]. apply H, in_seq in Hv. clear -Hv. lia. Qed.
  Lemma cnt_mono S S' v : (forall w, w < n -> S w = true -> S' w = true) -> cnt S v <= cnt S' v.
  Proof.
    intros H. apply filter_le_imp. intros c Hc E. apply Bool.andb_true_iff in E as [E1 E2]. rewrite E1. cbn [andb]. rewrite forallb_forall in *. intros x Hx. apply H; auto. eapply clique_lt; eauto.
  Qed.
  Lemma cnt_ext S S' v : (forall w, w < n -> S w = S' w) -> cnt S v = cnt S' v.
  Proof. intros H. apply Nat.le_antisymm; apply cnt_mono; intros w Hw; rewrite H; auto. Qed.

  (* one round: what is handed to update_changed *)
  Section Touched.
    Variable st : nat -> nat.
    Variable due : nat -> bool.
    Variable L : list nat.
    Hypothesis Hdue : forall v, due v = true -> v < n.
    Hypothesis Hs : forall v, st v = if (v <? n) && negb (due v) then 2 else 0.
    Hypothesis HL : forall v, In v L -> due v = true.
    Hypothesis HLnd : NoDup L.
    Notation st1 := (set_all st L 1).
    Lemma st1_val v : st1 v = if has L v then 1 else if (v <? n) && negb (due v) then 2 else 0.
    Proof. rewrite set_all_spec, Hs. reflexivity. Qed.
    Lemma st1_cases v : st1 v = 0 \/ st1 v = 1 \/ st1 v = 2.
    Proof. rewrite st1_val. destruct (has L v); auto. destruct ((v <? n) && negb (due v)); auto. Qed.
    Lemma st1_active v : In v L <-> active st1 v = true.
    Proof. unfold active. rewrite st1_val, Nat.eqb_eq, <- has_In. destruct (has L v); [tauto|]. destruct ((v <? n) && negb (due v)); split; congruence. Qed.
    Lemma L_lt v : In v L -> v < n.
    Proof. intros H. apply Hdue, HL, H. Qed.
    Lemma alive_due v : v < n -> alive st1 v = due v.
    Proof.
      intros Hv. unfold alive. rewrite st1_val, (proj2 (Nat.ltb_lt _ _) Hv). cbn [andb]. destruct (has L v) eqn:E; [apply has_In, HL in E; now rewrite E|]. destruct (due v); reflexivity.
    Qed.
    Lemma remaining_due v : v < n -> remaining st1 v = due v && negb (mem v L).
    Proof.
      intros Hv. unfold remaining. rewrite st1_val, (proj2 (Nat.ltb_lt _ _) Hv). cbn [andb]. change (mem v L) with (has L v). destruct (has L v) eqn:E; [now rewrite Bool.andb_false_r|]. destruct (due v); reflexivity.
    Qed.
    Lemma totals cl : (forall u, total cl u = occs id_ u (flat_map (gi outn rank K st1) L)) -> forall u, u < n ->
      (~ In u L -> total cl u + cnt (fun v => due v && negb (mem v L)) u = cnt due u) /\ total cl u <= cnt due u.
    Proof.
      intros H u Hu. destruct (gi_total HG HR HK st1_cases st1_active L_lt HLnd H Hu) as [A B].
      rewrite (@cnt_ext (alive st1) due) in A, B by apply alive_due. rewrite (@cnt_ext (remaining st1) (fun v => due v && negb (mem v L))) in A by apply remaining_due.
      split; auto. intros Hn. apply A. destruct (active st1 u) eqn:E; auto. apply st1_active in E. contradiction.
    Qed.
    Lemma tri_names i u : i < n -> In u (map fst (tri_root outn K rank st1 i)) -> In u (outn i).
    Proof.
      intros Hi H. apply in_map_iff in H as ([x c] & E & H). simpl in E. subst x. unfold tri_root in H. apply in_flat_map in H as (v & Hv & H).
      destruct (ignore_f rank st1 i v); [|destruct H]. unfold vtx_intersect in H. apply in_app_iff in H as [H|H].
      - apply in_map_iff in H as (w & E & Hw). injection E as <- _. apply filter_In in Hw as [Hw _]. rewrite both_ok in Hw.
        + apply filter_In in Hw as [_ Hw]. now apply has_In.
        + apply dgf_inc with (n := n); auto. now apply (HG Hi) in Hv.
        + now apply HG.
      - destruct H as [E|[]]. injection E as <- _. auto.
    Qed.
    Lemma pos_names cl : (forall u, total cl u = occs id_ u (flat_map (gi outn rank K st1) L)) -> Forall (fun c => 0 < snd c) cl ->
      forall u, In u (map fst cl) -> exists i, In i L /\ In u (outn i).
    Proof.
      intros H Hp u Hu. apply in_map_iff in Hu as ([x c] & E & Hu). simpl in E. subst x. rewrite Forall_forall in Hp. specialize (Hp _ Hu). simpl in Hp.
      apply total_pos in Hu. rewrite H in Hu. destruct (@occs_pos u (flat_map (gi outn rank K st1) L)) as (d & Hd & Hud); [lia|]. apply in_flat_map in Hd as (i & Hi & Hd).
      exists i. split; auto. unfold gi in Hd. apply chains_iff in Hd as (_ & Hd & _). auto.
    Qed.
    Lemma root_pos i sp : Forall (fun c => 0 < snd c) (snd (snd (clique_root half outn K rank label st1 sp i))).
    Proof.
      unfold clique_root. destruct (length (outn i) =? 0); [constructor|]. destruct (if label then _ else _) as [edges old'].
      pose proof (hrec_pos half edges (fun j => nth j (outn i) 0) (fun _ l => [l]) (K - 1 - 1) 1 0 [i] (fst sp) (seq 0 (length (outn i)))) as H.
      destruct (hrec _ _ _ _ _ _ _ _ _ _) as [[c L'] cl]. exact H.
    Qed.
    Lemma worker_pos items : Forall (fun c => 0 < snd c) (snd (run_worker (clique_root half outn K rank label st1) items)).
    Proof.
      unfold run_worker. assert (HF : forall its acc, Forall (fun c : nat * nat => 0 < snd c) (snd acc) ->
        Forall (fun c : nat * nat => 0 < snd c) (snd (fold_left (fun acc x => let '(sp, tot, cl) := acc in let '(sp', (c, cl')) := clique_root half outn K rank label st1 sp x in (sp', tot + c, cl ++ cl')) its acc))).
      { induction its as [|x its IH]; intros [[sp tot] cl] Ha; cbn [fold_left]; auto. apply IH. pose proof (root_pos x sp) as X.
        destruct (clique_root _ _ _ _ _ _ _ _) as [sp' [c cl']]. cbn [snd] in *. apply Forall_app. auto. }
      specialize (HF items (((fun _ => 0), (fun _ => 0)), 0, []) ltac:(constructor)). destruct (fold_left _ _ _) as [[sp tot] cl]. exact HF.
    Qed.
    Lemma touched_ok idxs ppc : touched half outn K rank label st L idxs ppc ->
      (forall v, In v idxs -> v < n) /\ (forall v, ~ In v idxs -> ppc v = 0) /\
      forall u, u < n -> (~ In u L -> ppc u + cnt (fun v => due v && negb (mem v L)) u = cnt due u) /\ ppc u <= cnt due u.
    Proof.
      assert (HN : forall u i, In i L -> In u (outn i) -> u < n) by (intros u i Hi Hu; apply (HG (L_lt Hi)) in Hu; tauto).
      intros [cl ch Hl Hc [Hnd Hch]|Hl].
      - pose proof (calls_total HG HK L_lt Hc) as HT. split; [|split].
        + intros v Hv. apply Hch in Hv. unfold calls_of in Hc. destruct (K =? 3).
          * apply in_map_iff in Hv as ([x c] & E & Hv). simpl in E. subst x. apply (Permutation_in _ Hc), in_flat_map in Hv as (i & Hi & Hv).
            apply (HN v i Hi). apply tri_names; [now apply L_lt|]. apply in_map_iff. now exists (v, c).
          * destruct Hc as (ws & Hp & ->). destruct (@pos_names (snd (run_workers (clique_root half outn K rank label st1) ws)) HT) with (2 := Hv) as (i & Hi & Hu); [|now apply (HN v i)].
            unfold run_workers. cbn [snd]. apply Forall_forall. intros x Hx. apply in_flat_map in Hx as (y & Hy & Hx). apply in_map_iff in Hy as (w & <- & _).
            pose proof (worker_pos w) as X. rewrite Forall_forall in X. auto.
        + intros v Hv. apply total_none. now rewrite <- Hch.
        + intros u Hu. now apply totals.
      - unfold serial_idxs. pose proof (touch_ok (serial_calls half outn K rank label st1 L)) as [A B]. assert (HT : forall u, total (serial_calls half outn K rank label st1 L) u = occs id_ u (flat_map (gi outn rank K st1) L)) by (intros u; apply serial_total with (n := n); auto; apply L_lt). split; [|split].
        + intros v Hv. apply B in Hv. unfold serial_calls in Hv, HT. destruct (K =? 3).
          * apply in_map_iff in Hv as ([x c] & E & Hv). simpl in E. subst x. apply in_flat_map in Hv as (i & Hi & Hv).
            apply (HN v i Hi). apply tri_names; [now apply L_lt|]. apply in_map_iff. now exists (v, c).
          * destruct (@pos_names _ HT) with (2 := Hv) as (i & Hi & Hu); [apply worker_pos|]. now apply (HN v i).
        + intros v Hv. rewrite A. apply total_none. now rewrite <- B.
        + intros u Hu. rewrite A. now apply totals.
    Qed.
    (* for cliques of four and more no vertex is entered twice *)
    Lemma serial_fits : 4 <= K -> length L <= 1 -> length (snd (serial_idxs half outn K rank label st1 L)) <= max_deg n outn.
    Proof.
      intros HK4 Hl. unfold serial_idxs. pose proof (touch_ok (serial_calls half outn K rank label st1 L)) as [_ B].
      assert (HT : forall u, total (serial_calls half outn K rank label st1 L) u = occs id_ u (flat_map (gi outn rank K st1) L)) by (intros u; apply serial_total with (n := n); auto; apply L_lt).
      assert (HP : Forall (fun c => 0 < snd c) (serial_calls half outn K rank label st1 L)).
      { unfold serial_calls. destruct (Nat.eqb_spec K 3); [lia|]. apply worker_pos. }
      pose proof (touch_nodup HP) as ND. set (idxs := snd (fold_left touch _ _)) in *.
      destruct idxs as [|a l] eqn:E; [simpl; lia|]. rewrite <- E in *.
      assert (Ha : exists i, In i L /\ In a (outn i)) by (apply (pos_names HT HP), B; rewrite E; now left). destruct Ha as (i & Hi & _).
      transitivity (length (outn i)).
      - apply NoDup_incl_length; auto. intros u Hu. apply B in Hu. apply (pos_names HT HP) in Hu as (j & Hj & Hu).
        destruct L as [|x [|y L']]; [destruct Hi| |simpl in Hl; lia]. destruct Hi as [<-|[]], Hj as [<-|[]]. auto.
      - unfold max_deg. apply L_lt in Hi. assert (X : In (length (outn i)) (map (fun v => length (outn v)) (seq 0 n))) by (apply in_map_iff; exists i; split; auto; apply in_seq; lia).
        revert X. generalize (map (fun v => length (outn v)) (seq 0 n)) as T. induction T as [|t T IH]; [intros []|]. cbn [fold_right]. intros [->|X]; [lia|]. apply IH in X. lia.
    Qed.
  End Touched.

  Section Rounds.
    Variables o null : nat.
    Hypothesis Ho : 0 < o.
    Hypothesis Hwide : null <= wide.
    Variable start : nat -> nat.
    Hypothesis Hstart : forall v, v < n -> start v = cnt (fun w => w <? n) v.
    Hypothesis Hnull : forall v, v < n -> start v < null.
    Notation D0 := (start_D n null start).
    Notation loop := (peel_loop half wide n outn K rank label o null start).

    (* the vertices of one round, one after the other *)
    Lemma proc_ok s k due1 idxs : cur s < o -> k = cur_num true o s -> (forall v, In v idxs -> v < n) -> forall C ppc D m Dm duem,
      (forall v, D v = Dm v) -> (forall v, duem v = due1 v) -> run true o null n D0 (closer true null) (update_seq m s) Dm duem k ->
      (forall v, v < n -> ppc v <= C v <= wide) -> (forall v, v < n -> k < D v -> due1 v = true /\ D v = C v /\ D v < null) ->
      (forall e, In e m -> due1 (fst e) = true) ->
      let X := fold_left (upd_changed wide o null s k) idxs (C, ppc, D, m) in
      (exists Dm' duem', (forall v, snd (fst X) v = Dm' v) /\ (forall v, duem' v = due1 v) /\ run true o null n D0 (closer true null) (update_seq (snd X) s) Dm' duem' k) /\
      (forall v, fst (fst (fst X)) v = if has idxs v then C v - ppc v else C v) /\
      (forall v, snd (fst X) v = if has idxs v && (k <? D v) then Nat.max (C v - ppc v) k else D v) /\
      forall e, In e (snd X) -> due1 (fst e) = true.
    Proof.
      intros Hcur Hk. induction idxs as [|v idxs IH]; intros Hn C ppc D m Dm duem HD Hdm Hr HC Hgt Hm; cbv zeta; cbn [fold_left].
      { cbn [fst snd]. split; [exists Dm, duem; auto|]. split; [reflexivity|]. split; [reflexivity|exact Hm]. }
      assert (Hv : v < n) by (apply Hn; now left). assert (Hn' : forall w, In w idxs -> w < n) by (intros; apply Hn; now right).
      set (C1 := fset C v (C v - ppc v)). set (p1 := fset ppc v 0).
      assert (HC1 : forall w, w < n -> p1 w <= C1 w <= wide).
      { intros w Hw. unfold p1, C1, fset. specialize (HC w Hw). destruct (Nat.eqb_spec w v) as [->|]; lia. }
      assert (Eu : usub wide (C v) (ppc v) = C v - ppc v) by (apply usub_wide; apply HC; auto). 
      assert (Es : upd_changed wide o null s k (C, ppc, D, m) v = if k <? D v then (C1, p1, fset D v (Nat.max (C v - ppc v) k), m ++ [(v, get_bucket2 true o null s (D v) (Nat.max (C v - ppc v) k))]) else (C1, p1, D, m)).
      { unfold upd_changed. cbv zeta. rewrite Eu. reflexivity. }
      rewrite Es.
      assert (HCf : forall w, (if has idxs w then C1 w - p1 w else C1 w) = if has (v :: idxs) w then C w - ppc w else C w).
      { intros w. rewrite has_cons. unfold C1, p1, fset. destruct (Nat.eqb_spec w v) as [->|]; cbn [orb]; auto. destruct (has idxs v); lia. }
      destruct (Nat.ltb_spec k (D v)) as [Hlt|Hge].
      - destruct (Hgt v Hv Hlt) as (Hdv & HDC & Hnl). set (nd := Nat.max (C v - ppc v) k). assert (Hnd : nd <= D v) by (unfold nd; lia).
        set (D1 := fset D v nd). set (e := (v, get_bucket2 true o null s (D v) nd)).
        assert (Hgt1 : forall w, w < n -> k < D1 w -> due1 w = true /\ D1 w = C1 w /\ D1 w < null).
        { intros w Hw. unfold D1, C1, fset. destruct (Nat.eqb_spec w v) as [->|]; [|now apply Hgt]. intros X. split; auto. unfold nd in *. lia. }
        assert (Hm1 : forall x, In x (m ++ [e]) -> due1 (fst x) = true) by (intros x Hx; apply in_app_iff in Hx as [Hx|[<-|[]]]; auto).
        destruct (update_frame m s) as [F1 F2].
        assert (Hr1 : exists Dm' duem', (forall w, D1 w = Dm' w) /\ (forall w, duem' w = due1 w) /\ run true o null n D0 (closer true null) (update_seq (m ++ [e]) s) Dm' duem' k).
        { assert (Eapp : update_seq (m ++ [e]) s = push (update_seq m s) e) by (unfold update_seq; now rewrite fold_left_app).
          destruct (Nat.eq_dec nd (D v)) as [End|End].
          - exists Dm, duem. split; [|split; auto].
            + intros w. unfold D1, fset. destruct (Nat.eqb_spec w v) as [->|]; auto. now rewrite End.
            + rewrite Eapp. unfold e. rewrite End, (bucket2_stay Ho Hcur Hnl) by lia. exact Hr.
          - set (mv := {| mv_id := v; mv_next := nd; mv_one_arg := false |}).
            assert (Hrm : run true o null n D0 (closer true null) (update_seq (batch true o null (update_seq m s) Dm [mv]) (update_seq m s)) (moved [mv] Dm) (fun w => duem w || mem w (map mv_id [mv])) k).
            { apply run_move; [exact Hr|cbn; constructor; [intros []|constructor]|]. intros x [<-|[]]. cbn [mv_id mv_next mv_one_arg]. split.
              - split; [unfold mv; cbn [mv_next]; lia|]. split; [simpl; unfold nd; lia|discriminate].
              - right. left. cbn [mv_id mv_next mv]. rewrite Hdm. split; auto. split; [simpl; rewrite <- HD; lia|discriminate]. }
            exists (moved [mv] Dm), (fun w => duem w || mem w (map mv_id [mv])). split; [|split].
            + intros w. unfold D1, fset, moved. cbn [find mv_id mv]. rewrite (Nat.eqb_sym v w). destruct (Nat.eqb_spec w v); auto.
            + intros w. rewrite Hdm. unfold mem. cbn [map mv_id mv existsb]. destruct (Nat.eqb_spec w v) as [->|]; [now rewrite Hdv|]. cbn. apply Bool.orb_false_r.
            + rewrite Eapp. replace e with (v, get_bucket2 true o null (update_seq m s) (Dm v) nd); [exact Hrm|]. unfold e. rewrite <- HD. apply (f_equal (pair v)). apply bucket2_frame; auto. }
        destruct Hr1 as (Dm1 & due1' & A1 & A2 & A3).
        destruct (IH Hn' C1 p1 D1 (m ++ [e]) Dm1 due1' A1 A2 A3 HC1 Hgt1 Hm1) as (B1 & B2 & B3 & B4). split; [exact B1|]. split; [intros w; rewrite B2; apply HCf|]. split; [|exact B4].
        intros w. rewrite B3, has_cons. unfold D1, C1, p1, fset. destruct (Nat.eqb_spec w v) as [->|]; cbn [orb]; [|destruct (has idxs w); reflexivity].
        rewrite (proj2 (Nat.ltb_lt k (D v)) Hlt). cbn [andb]. fold nd. destruct (has idxs v); cbn [andb]; auto. destruct (k <? nd) eqn:Ek; auto. rewrite Nat.sub_0_r. reflexivity.
      - assert (Hgt1 : forall w, w < n -> k < D w -> due1 w = true /\ D w = C1 w /\ D w < null).
        { intros w Hw X. unfold C1. rewrite fset_other; [now apply Hgt|]. intros ->. lia. }
        destruct (IH Hn' C1 p1 D m Dm duem HD Hdm Hr HC1 Hgt1 Hm) as (B1 & B2 & B3 & B4). split; [exact B1|]. split; [intros w; rewrite B2; apply HCf|]. split; [|exact B4].
        intros w. rewrite B3, has_cons. unfold C1, p1, fset. destruct (Nat.eqb_spec w v) as [->|]; cbn [orb]; [|destruct (has idxs w); reflexivity].
        rewrite (proj2 (Nat.ltb_ge k (D v)) Hge). now rewrite Bool.andb_false_r.
    Qed.

    Record PI (f : nat) (C D st : nat -> nat) (s : bst) (due : nat -> bool) (last : nat) : Prop := {
      p_run : run true o null n D0 (closer true null) s D due last;
      p_due : forall v, due v = true -> v < n;
      p_fin : f + length (filter due (seq 0 n)) = n;
      p_D : forall v, due v = true -> D v = Nat.max last (cnt due v);
      p_C : forall v, due v = true -> C v = cnt due v;
      p_C0 : forall v, v < n -> due v = false -> C v = 0;
      p_st : forall v, st v = if (v <? n) && negb (due v) then 2 else 0;
      p_hi : forall j S v, core j S -> last < j -> S v = true -> due v = true;
      p_lo : exists S, core last S /\ forall v, due v = true -> S v = true;
      p_out : forall v, v < n -> due v = false -> coreness v (D v) /\ D v <= last }.

    Lemma cnt_null S v : v < n -> cnt S v < null.
    Proof. intros Hv. pose proof (Hnull Hv) as H. rewrite (Hstart Hv) in H. assert (cnt S v <= cnt (fun w => w <? n) v); [|lia]. apply cnt_mono. intros w Hw _. now apply Nat.ltb_lt. Qed.
    Lemma start_pi : 0 < n -> exists due last, PI 0 start D0 (fun _ => 0) (make true o null n D0) due last.
    Proof.
      intros Hn.
      assert (Hmin : forall k, k < n -> exists i, i <= k /\ forall j, j <= k -> start i <= start j).
      { induction k as [|k IH]; intros Hk; [exists 0; split; auto; intros j Hj; now replace j with 0 by lia|].
        destruct IH as (i & Hi & H); [lia|]. destruct (Nat.le_gt_cases (start i) (start (S k))) as [X|X].
        - exists i. split; [lia|]. intros j Hj. destruct (Nat.eq_dec j (S k)) as [->|]; auto. apply H. lia.
        - exists (S k). split; auto. intros j Hj. destruct (Nat.eq_dec j (S k)) as [->|]; auto. specialize (H j ltac:(lia)). lia. }
      destruct (Hmin (n - 1) ltac:(lia)) as (i & Hi & Hm). assert (Hin : i < n) by lia.
      assert (Ed : forall v, v < n -> D0 v = start v) by (intros v Hv; unfold start_D; now rewrite (proj2 (Nat.ltb_lt _ _) Hv)).
      assert (Eo : forall v, n <= v -> D0 v = null) by (intros v Hv; unfold start_D; now rewrite (proj2 (Nat.ltb_ge _ _) Hv)).
      assert (Edue : forall v, (v <? n) && (D0 v <? null) = (v <? n)).
      { intros v. destruct (v <? n) eqn:E; auto. apply Nat.ltb_lt in E. cbn [andb]. rewrite Ed by auto. apply Nat.ltb_lt. auto. }
      exists (fun v => (v <? n) && (D0 v <? null)), (D0 i).
      assert (Erd : forall v, v < n -> cnt (fun v => (v <? n) && (D0 v <? null)) v = start v).
      { intros v Hv. rewrite (Hstart Hv). apply cnt_ext. intros w _. apply Edue. }
      split.
      - apply run_start; auto.
        + rewrite Ed by auto. auto.
        + intros j. destruct (Nat.lt_ge_cases j n); [rewrite Ed by auto; apply Nat.lt_le_incl; auto|rewrite Eo; auto].
        + intros j Hj _. simpl. rewrite !Ed by auto. apply Hm. lia.
      - intros v. rewrite Edue. apply Nat.ltb_lt.
      - rewrite filter_all, seq_length; auto. intros v Hv. apply in_seq in Hv. rewrite Edue. apply Nat.ltb_lt. lia.
      - intros v. rewrite Edue. intros Hv. apply Nat.ltb_lt in Hv. rewrite Erd, !Ed by auto. specialize (Hm v ltac:(lia)). lia.
      - intros v. rewrite Edue. intros Hv. apply Nat.ltb_lt in Hv. now rewrite Erd.
      - intros v Hv. rewrite Edue. intros X. apply Nat.ltb_ge in X. lia.
      - intros v. rewrite Edue. destruct (v <? n); reflexivity.
      - intros j S v Hc Hj Hv. rewrite Edue. apply Nat.ltb_lt. now apply (Hc v).
      - exists (fun v => v <? n). split; [|intros v; now rewrite Edue]. intros v Hv. apply Nat.ltb_lt in Hv. split; auto. rewrite <- Hstart, Ed by auto. apply Hm. lia.
      - intros v Hv. rewrite Edue. intros X. apply Nat.ltb_ge in X. lia.
    Qed.

    Lemma round_pi f C Dr D st s due last fuel k L s' idxs ppc : (forall v, Dr v = D v) -> PI f C D st s due last ->
      next_bucket true o fuel Dr s = Ret (Some (k, L)) s' -> touched half outn K rank label st L idxs ppc ->
      L <> [] /\
      let X := fold_left (upd_changed wide o null s' k) idxs (C, ppc, Dr, []) in
      exists D' due', (forall v, snd (fst X) v = D' v) /\
        PI (f + length L) (set_all (fst (fst (fst X))) L 0) D' (set_all st L 2) (update_seq (filter (fun e => negb (set_all st L 2 (fst e) =? 2)) (snd X)) s') due' k.
    Proof.
      intros HDr HI En HT. rewrite (next_ext true o Dr D HDr) in En.
      destruct (C19_next_bucket Ho (run_any (p_run HI))) as (_ & _ & Hans). specialize (Hans _ _ _ En).
      destruct Hans as (HLne & HL & Hall & Hk). cbn [no_later] in Hall, Hk.
      assert (HndL : NoDup L) by (eapply C19_no_repeats; [exact Ho|left; reflexivity|apply (p_run HI)|exact En]).
      assert (HLn : forall v, In v L -> v < n) by (intros v Hv; apply HL in Hv as [Hv _]; now apply (p_due HI)).
      split; auto. cbv zeta.
      set (due1 := fun v => due v && negb (mem v L)).
      assert (Hdue1 : forall v, due1 v = true <-> due v = true /\ ~ In v L).
      { intros v. unfold due1. rewrite Bool.andb_true_iff, Bool.negb_true_iff, mem_false. tauto. }
      assert (Hr1 : run true o null n D0 (closer true null) s' D due1 k) by (eapply run_next; [apply (p_run HI)|exact En]).
      destruct (any_run Ho Hr1) as (t & G1). pose proof (J_cur (G_inv G1)) as Hcur. pose proof (next_num En) as Hkn.
      destruct (@touched_ok st due L (p_due HI) (p_st HI) (fun v Hv => proj1 (proj1 (HL v) Hv)) HndL idxs ppc HT) as (T1 & T2 & T3). fold due1 in T3.
      assert (HgtL : forall v, due v = true -> (k < D v <-> ~ In v L)).
      { intros v Hv. specialize (Hall v Hv). split; intros X.
        - intros Y. apply HL in Y as [_ Y]. lia.
        - destruct (Nat.eq_dec (D v) k); [exfalso; apply X, HL; auto|lia]. }
      assert (Hgt : forall v, v < n -> k < D v -> due1 v = true /\ D v = C v /\ D v < null).
      { intros v Hv X. destruct (due v) eqn:Ed.
        - split; [apply Hdue1; split; auto; now apply HgtL|]. pose proof (p_D HI Ed). pose proof (p_C HI Ed). pose proof (@cnt_null due v Hv). lia.
        - destruct (p_out HI Hv Ed) as [_ Y]. lia. }
      assert (Hzero : forall v, v < n -> due v = false -> cnt due v = 0).
      { intros v Hv Hd. unfold cliques_at. rewrite filter_none; auto. intros c Hc. destruct (has c v) eqn:E; auto. cbn [andb]. destruct (forallb due c) eqn:F; auto. rewrite forallb_forall in F.
        apply has_In, F in E. congruence. }
      assert (HC : forall v, v < n -> ppc v <= C v <= wide).
      { intros v Hv. destruct (T3 v Hv) as [_ X]. pose proof (@cnt_null due v Hv). destruct (due v) eqn:Ed.
        - rewrite (p_C HI Ed). lia.
        - rewrite (p_C0 HI Hv Ed). rewrite (Hzero v Hv Ed) in *. lia. }
      destruct (@proc_ok s' k due1 idxs Hcur Hkn T1 C ppc Dr [] D due1 HDr (fun _ => eq_refl) Hr1 HC) as ((D' & due' & A1 & A2 & A3) & B1 & B2 & B3).
      { intros v Hv. rewrite HDr. now apply Hgt. }
      { intros e []. }
      set (X := fold_left (upd_changed wide o null s' k) idxs (C, ppc, Dr, [])) in *.
      assert (HD' : forall v, D' v = if has idxs v && (k <? D v) then Nat.max (C v - ppc v) k else D v) by (intros v; rewrite <- A1, B2, HDr; reflexivity).
      assert (Hst2 : forall v, set_all st L 2 v = if (v <? n) && negb (due1 v) then 2 else 0).
      { intros v. rewrite set_all_spec. rewrite (p_st HI v). unfold due1. change (mem v L) with (has L v). destruct (has L v) eqn:E.
        - apply has_In, HLn in E. rewrite (proj2 (Nat.ltb_lt _ _) E), Bool.andb_false_r. reflexivity.
        - rewrite Bool.andb_true_r. reflexivity. }
      assert (Hfil : filter (fun e => negb (set_all st L 2 (fst e) =? 2)) (snd X) = snd X).
      { apply filter_all. intros e He. rewrite Hst2, (B3 e He), Bool.andb_false_r. reflexivity. }
      exists D', due'. split; auto. rewrite Hfil.
      assert (Hdec : forall v, due1 v = true -> C v - ppc v = cnt due1 v).
      { intros v Hv. apply Hdue1 in Hv as [Hd HnL]. destruct (T3 v (p_due HI Hd)) as [Y _]. specialize (Y HnL). rewrite (p_C HI Hd). lia. }
      assert (Hsame : forall v, ~ In v idxs -> due1 v = true -> cnt due v = cnt due1 v).
      { intros v Hi Hv. specialize (Hdec v Hv). rewrite (T2 v Hi) in Hdec. apply Hdue1 in Hv as [Hd _]. rewrite (p_C HI Hd) in Hdec. lia. }
      assert (Hc' : forall v, cnt due' v = cnt due1 v) by (intros v; apply cnt_ext; auto).
      assert (HloL : exists S, core k S /\ forall v, due v = true -> S v = true).
      { destruct (Nat.eq_dec k last) as [->|Hne]; [apply (p_lo HI)|]. exists due. split; auto. intros v Hv. split; [now apply (p_due HI)|].
        specialize (Hall v Hv). pose proof (p_D HI Hv). lia. }
      assert (HhiL : forall j S v, core j S -> k < j -> S v = true -> due1 v = true).
      { intros j S v HS Hj Hv. assert (Hd : forall w, S w = true -> due w = true) by (intros w Hw; eapply (p_hi HI); eauto; lia).
        apply Hdue1. split; auto. intros HvL. apply HL in HvL as [_ E]. pose proof (p_D HI (Hd v Hv)) as E2.
        destruct (HS v Hv) as [_ Hd2]. assert (cnt S v <= cnt due v) by (apply cnt_mono; auto). lia. }
      split.
      - exact A3.
      - intros v. rewrite A2. intros Hv. apply Hdue1 in Hv as [Hv _]. now apply (p_due HI).
      - rewrite (filter_ext due' due1 A2).
        pose proof (p_fin HI) as Hf. rewrite (filter_split (fun w => mem w L) due) in Hf by (intros w _ Hw; apply mem_In, HL in Hw; tauto).
        assert (E : length (filter (fun w => mem w L) (seq 0 n)) = length L).
        { apply Permutation_length, NoDup_Permutation; auto; [apply NoDup_filter, seq_NoDup|]. intros w. rewrite filter_In, mem_In, in_seq. split; [tauto|].
          intros Hw. split; auto. specialize (HLn w Hw). lia. }
        unfold due1. lia.
      - intros v. rewrite A2, Hc'. intros Hv. pose proof (proj1 (Hdue1 v) Hv) as [Hd HnL]. pose proof (p_due HI Hd) as Hvn. rewrite HD'.
        pose proof (proj2 (HgtL v Hd) HnL) as Hg. rewrite (proj2 (Nat.ltb_lt _ _) Hg), Bool.andb_true_r. destruct (has idxs v) eqn:E.
        + rewrite (Hdec v Hv). apply Nat.max_comm.
        + apply has_false in E. rewrite <- (Hsame v E Hv). destruct (Hgt v Hvn Hg) as (_ & Y & _). rewrite (p_C HI Hd) in Y. lia.
      - intros v. rewrite A2, Hc'. intros Hv. pose proof (proj1 (Hdue1 v) Hv) as [Hd HnL]. rewrite set_all_spec. rewrite (proj2 (has_false L v) HnL), B1.
        destruct (has idxs v) eqn:E; [now apply Hdec|]. apply has_false in E. rewrite <- (Hsame v E Hv). now apply (p_C HI).
      - intros v Hv. rewrite A2. intros Hd1. rewrite set_all_spec, B1. destruct (has L v) eqn:E; auto. apply has_false in E.
        assert (Hd : due v = false). { destruct (due v) eqn:Ed; auto. assert (due1 v = true) by (apply Hdue1; auto). congruence. }
        rewrite (p_C0 HI Hv Hd). destruct (has idxs v); lia.
      - intros v. rewrite Hst2, A2. reflexivity.
      - intros j S v. rewrite A2. apply HhiL.
      - destruct HloL as (S & HS & HSd). exists S. split; auto. intros v. rewrite A2. intros Hv. apply Hdue1 in Hv. apply HSd. tauto.
      - intros v Hv. rewrite A2. intros Hd1. assert (Hle : D v <= k).
        { destruct (Nat.le_gt_cases (D v) k) as [|Y]; auto. destruct (Hgt v Hv Y) as [Z _]. congruence. }
        rewrite HD', (proj2 (Nat.ltb_ge _ _) Hle), Bool.andb_false_r. split; auto. destruct (due v) eqn:Ed.
        + assert (HvL : In v L). { destruct (in_dec Nat.eq_dec v L) as [|Hn]; auto. exfalso. assert (due1 v = true) by (apply Hdue1; auto). congruence. }
          apply HL in HvL as E. destruct E as [_ E]. rewrite E. split.
          * destruct HloL as (S & HS & HSd). exists S. auto.
          * intros j S HS Hsv. destruct (Nat.le_gt_cases j k) as [|Hj]; auto. apply (HhiL j S v HS Hj) in Hsv. apply Hdue1 in Hsv. tauto.
        + now apply (p_out HI).
    Qed.
    Lemma loop_pi f C D st s : 0 < n -> loop f C D st s -> exists D' due last, (forall v, D v = D' v) /\ PI f C D' st s due last.
    Proof.
      intros Hn H. induction H as [|f C D st s fuel k L s' idxs ppc H (D' & due & last & HD & HI) Hf En HT Hl X st'].
      - destruct (start_pi Hn) as (due & last & HI). exists D0, due, last. auto.
      - destruct (round_pi HD HI En HT) as (_ & D2 & due2 & H1 & H2). exists D2, due2, k. auto.
    Qed.
    Lemma round_facts f C Dr D st s due last fuel k L s' : (forall v, Dr v = D v) -> PI f C D st s due last -> next_bucket true o fuel Dr s = Ret (Some (k, L)) s' ->
      (forall v, In v L -> due v = true) /\ NoDup L.
    Proof.
      intros HDr HI En. rewrite (next_ext true o Dr D HDr) in En. destruct (C19_next_bucket Ho (run_any (p_run HI))) as (_ & _ & Hans). specialize (Hans _ _ _ En).
      destruct Hans as (_ & HL & _). split; [intros v Hv; apply HL in Hv; tauto|]. eapply C19_no_repeats; [exact Ho|left; reflexivity|apply (p_run HI)|exact En].
    Qed.
    Lemma calls_ex st L : exists cl, calls_of half outn K rank label st L cl.
    Proof. unfold calls_of. destruct (K =? 3); [eexists; reflexivity|]. eexists. exists [L]. cbn [concat]. rewrite app_nil_r. split; reflexivity. Qed.
    Lemma touched_ex st L : exists idxs ppc, touched half outn K rank label st L idxs ppc.
    Proof.
      destruct (Nat.le_gt_cases (length L) 1) as [Hl|Hl]; [do 2 eexists; apply single; auto|].
      destruct (calls_ex (set_all st L 1) L) as (cl & Hc). do 2 eexists. apply (@many half outn K rank label st L cl (nodup Nat.eq_dec (map fst cl))); auto. split; [apply NoDup_nodup|]. intros v. apply nodup_In.
    Qed.
    Lemma loop_step f C D st s : 0 < n -> loop f C D st s -> f <> n ->
      exists fuel k L s', next_bucket true o fuel D s = Ret (Some (k, L)) s' /\ L <> [].
    Proof.
      intros Hn H Hf. destruct (loop_pi Hn H) as (D' & due & last & HD & HI).
      destruct (C19_next_bucket Ho (run_any (p_run HI))) as ((fuel & r & s' & En) & _ & Hans). specialize (Hans _ _ _ En).
      destruct r as [[k L]|].
      - exists fuel, k, L, s'. rewrite (next_ext true o D D' HD). tauto.
      - exfalso. pose proof (p_fin HI) as X. rewrite filter_none in X; [simpl in X; lia|]. auto.
    Qed.
  End Rounds.
End Peel.
