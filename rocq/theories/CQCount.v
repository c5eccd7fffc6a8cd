(* Clique counting: the loops over vertices, edges and blocks, and the sum over the workers. *)
From Coq Require Import Permutation Sorted.
From Verif Require Import Base ListUtil ISModel ISSpec SFModel SFProofs HGProofs TCModel TCProofs CQModel CQSpec CQRec CQSetup.

Notation id_ := (fun x : nat => x).
Lemma occs_map f u cs : occs f u cs = occs id_ u (map (map f) cs).
Proof. unfold occs. rewrite map_map. f_equal. apply map_ext. intros c. now rewrite map_id. Qed.
Lemma occs_perm f u a b : Permutation a b -> occs f u a = occs f u b.
Proof. intros H. unfold occs. apply sum_perm. now apply Permutation_map. Qed.
Lemma flat_perm {A B} (f : A -> list B) l l' : Permutation l l' -> Permutation (flat_map f l) (flat_map f l').
Proof.
  induction 1; simpl; auto; [now apply Permutation_app_head| |etransitivity; eauto].
  rewrite !app_assoc. apply Permutation_app_tail, Permutation_app_comm.
Qed.
Lemma inc_nodup l : increasing l -> NoDup l.
Proof. unfold increasing. induction 1 as [|x l H IH Hf]; constructor; auto. intros Hx. rewrite Forall_forall in Hf. specialize (Hf _ Hx). lia. Qed.
Definition good (cs : list (list nat)) (c : nat) (cl : calls) : Prop := c = length cs /\ forall u, total cl u = occs id_ u cs.
Lemma good_app cs c cl cs' c' cl' : good cs c cl -> good cs' c' cl' -> good (cs ++ cs') (c + c') (cl ++ cl').
Proof. intros [A B] [A' B']. split; [rewrite app_length; lia|]. intros u. rewrite total_app, occs_app, B, B'. reflexivity. Qed.
Lemma good_perm cs cs' c cl : Permutation cs cs' -> good cs c cl -> good cs' c cl.
Proof. intros H [A B]. split; [now rewrite <- (Permutation_length H)|]. intros u. rewrite B. now apply occs_perm. Qed.
Lemma good_cons v cs c cl : good cs c cl -> good (map (cons v) cs) c (cl ++ (if 0 <? c then [(v, c)] else [])).
Proof.
  intros [A B]. split; [now rewrite map_length|]. intros u. rewrite total_app, total_opt, occs_cons, B. subst c. lia.
Qed.

Section Count.
  Variable half n : nat.
  Variable dg : nat -> list nat.
  Variable ord : nat -> nat.
  Hypothesis Hord : forall v w, In w (dg v) -> ord v < ord w.
  Hypothesis Hlt : forall v w, v < n -> In w (dg v) -> w < n.
  Hypothesis Hinc : forall v, v < n -> increasing (dg v).
  Variable split : list nat -> list nat -> list (list nat).
  Hypothesis Hsplit : forall p l, Permutation (concat (split p l)) l.
  Notation ch := (chains dg).
  Notation space := ((nat -> nat) * (nat -> nat))%type.
  Definition clean (sp : space) : Prop := (forall w, fst sp w = 0) /\ forall w, snd sp w = 0.
  Definition body_ok {A} (body : space -> A -> space * (nat * calls)) (g : A -> list (list nat)) (x : A) : Prop :=
    forall sp, clean sp -> let '(sp', (c, cl)) := body sp x in clean sp' /\ good (g x) c cl.

  Lemma local_ord B edges : rows_ok dg B edges -> forall v w, In w (edges v) -> ord (nth v B 0) < ord (nth w B 0).
  Proof.
    intros H v w Hw. destruct (H v) as [A C]. apply Hord. assert (X : In (nth w B 0) (filter (has B) (dg (nth v B 0)))); [|now apply filter_In in X].
    rewrite <- A. apply in_map_iff. exists w. auto.
  Qed.
  Lemma local_rec B edges r level path labels : NoDup B -> rows_ok dg B edges -> 0 < r -> r < half -> (forall w, labels w = 0) ->
    let '(c, L', cl) := hrec half edges (fun j => nth j B 0) split r 1 level path labels (seq 0 (length B)) in
    good (ch (r + 1) B) c cl /\ forall w, L' w = 0.
  Proof.
    intros ND HR Hr Hh HL.
    pose proof (@hrec_ok edges (fun v => ord (nth v B 0)) (local_ord HR) half (fun j => nth j B 0) split Hsplit r 1 level path labels (seq 0 (length B)) Hr ltac:(lia) ltac:(lia)
      ltac:(intros w; rewrite HL; lia) ltac:(intros w _; rewrite HL; lia)) as H.
    destruct (hrec _ _ _ _ _ _ _ _ _ _) as [[c L'] cl]. destruct H as (A & C & D).
    assert (E : map (map (fun x => nth x B 0)) (chains edges (r + 1) (seq 0 (length B))) = ch (r + 1) B).
    { rewrite (@local_chains dg B edges (r + 1) ND HR) by (intros x Hx; apply in_seq in Hx; lia). now rewrite local_all. }
    split; [split|intros w; now rewrite C].
    - rewrite A, <- E. now rewrite map_length.
    - intros u. rewrite D, occs_map, E. reflexivity.
  Qed.

  Section Body.
    Variable label : bool.
    Variables k level : nat.
    Hypothesis Hk : 2 <= k.
    Hypothesis Hkh : k - 1 < half.
    Definition gv (i : nat) : list (list nat) := map (cons i) (ch k (dg i)).
    Lemma setup_ok i old : i < n -> (forall w, old w = 0) ->
      let '(edges, old') := if label then setup_labels dg i old else (setup_intersect dg i, old) in rows_ok dg (dg i) edges /\ forall w, old' w = 0.
    Proof.
      intros Hi H. destruct label.
      - apply setup_labels_ok; auto. apply inc_nodup. now apply Hinc.
      - split; auto. apply setup_intersect_ok; [now apply Hinc|]. intros j. apply Hinc. destruct (Nat.lt_ge_cases j (length (dg i))) as [Hj|Hj].
        + apply (@Hlt i _ Hi). now apply nth_In.
        + rewrite nth_overflow by auto. lia.
    Qed.
    Lemma vertex_ok i : i < n -> body_ok (vertex_body half dg split label k level) gv i.
    Proof.
      intros Hi sp [H1 H2]. unfold vertex_body. destruct (Nat.eqb_spec (length (dg i)) 0) as [E|E].
      - split; [split; auto|]. unfold gv. rewrite (@chains_short dg ord Hord k (dg i)) by lia. split; auto.
      - pose proof (@setup_ok i (snd sp) Hi H2) as HS. destruct (if label then _ else _) as [edges old']. destruct HS as [HR Ho].
        pose proof (@local_rec (dg i) edges (k - 1) level [i] (fst sp) (inc_nodup (@Hinc _ Hi)) HR ltac:(lia) ltac:(lia) H1) as HL.
        destruct (hrec _ _ _ _ _ _ _ _ _ _) as [[c L'] cl]. destruct HL as [G HL]. split; [split; auto|].
        unfold gv. replace (k - 1 + 1) with k in G by lia. now apply good_cons.
    Qed.
    Lemma worker_ok {A} body (g : A -> list (list nat)) items : (forall x, In x items -> body_ok body g x) ->
      good (flat_map g items) (fst (run_worker body items)) (snd (run_worker body items)).
    Proof.
      intros H. unfold run_worker.
      assert (HF : forall its sp tot cl done, (forall x, In x its -> body_ok body g x) -> clean sp -> good done tot cl ->
        let '(sp', tot', cl') := fold_left (fun acc x => let '(sp, tot, cl) := acc in let '(sp', (c, cl')) := body sp x in (sp', tot + c, cl ++ cl')) its (sp, tot, cl) in
        good (done ++ flat_map g its) tot' cl').
      { induction its as [|x its IH]; intros sp tot cl done Hb Hc Hg; cbn [fold_left flat_map]; [now rewrite app_nil_r|].
        pose proof (Hb x (or_introl eq_refl) sp Hc) as HX. destruct (body sp x) as [sp' [c cl']]. destruct HX as [HX1 HX2]. rewrite app_assoc. apply IH; auto.
        - intros y Hy. apply Hb. now right.
        - now apply good_app. }
      specialize (HF items ((fun _ => 0), (fun _ => 0)) 0 [] [] H ltac:(split; reflexivity) ltac:(split; reflexivity)).
      destruct (fold_left _ _ _) as [[sp tot] cl]. exact HF.
    Qed.
    Lemma workers_ok {A} body (g : A -> list (list nat)) ws : (forall x, In x (concat ws) -> body_ok body g x) ->
      good (flat_map g (concat ws)) (fst (run_workers body ws)) (snd (run_workers body ws)).
    Proof.
      intros H. unfold run_workers. cbn [fst snd]. induction ws as [|w ws IH]; [split; reflexivity|]. cbn [map list_sum fold_right flat_map concat] in *. rewrite flat_map_app.
      apply good_app; [apply worker_ok; intros x Hx; apply H, in_app_iff; now left|]. apply IH. intros x Hx. apply H, in_app_iff. now right.
    Qed.
    Definition all : list (list nat) := ch (k + 1) (seq 0 n).
    Lemma all_gv : flat_map gv (seq 0 n) = all.
    Proof.
      unfold all. rewrite Nat.add_1_r. cbn [chains]. rewrite !flat_map_concat_map. f_equal. apply map_ext_in. intros i Hi. apply in_seq in Hi. unfold gv. f_equal. f_equal.
      symmetry. apply filter_all. intros w Hw. apply has_In, in_seq. assert (w < n); [|lia]. apply Hlt with i; auto. lia.
    Qed.
    Lemma by_vertex_ok count cl : by_vertex half n dg split label k level count cl -> good all count cl.
    Proof.
      intros (ws & Hp & E). assert (H : good (flat_map gv (concat ws)) count cl).
      { replace count with (fst (count, cl)) by reflexivity. replace cl with (snd (count, cl)) at 2 by reflexivity. rewrite E. apply workers_ok. intros x Hx. apply vertex_ok.
        apply (Permutation_in _ Hp), in_seq in Hx. lia. }
      rewrite <- all_gv. eapply good_perm; [|exact H]. now apply flat_perm.
    Qed.
    Lemma flat_good {A} (g : A -> list (list nat)) (one : A -> nat * calls) is : (forall i, In i is -> good (g i) (fst (one i)) (snd (one i))) ->
      good (flat_map g is) (list_sum (map (fun i => fst (one i)) is)) (flat_map (fun i => snd (one i)) is).
    Proof.
      induction is as [|i is IH]; intros H; [split; reflexivity|]. cbn [flat_map map list_sum fold_right]. apply good_app; [apply H; now left|apply IH; intros; apply H; now right].
    Qed.
    Lemma by_block_ok bsz count cl : by_block half n dg split label k level bsz = Some (count, cl) -> good all count cl.
    Proof.
      unfold by_block, split_blocks. set (tw := total_work n dg). set (wpb := tw / (tw / bsz + 1)). destruct (Nat.eqb_spec wpb 0) as [|Hw]; [discriminate|].
      set (is := flat_map _ _). assert (His : is = seq 0 n).
      { unfold is. rewrite flat_map_concat_map. set (a := fun j => bsearch (scanned n dg) (j * wpb)).
        rewrite (map_ext _ (fun b => seq (a b) (a (S b) - a b))) by (intros j; unfold a; now rewrite Nat.add_1_r).
        destruct (@seqs_concat a (tw / wpb + 1)) as [E _].
        - intros b _. apply bsearch_mono. simpl. lia.
        - rewrite E. assert (E0 : a 0 = 0).
          { unfold a. destruct (bsearch_spec (scanned n dg) (0 * wpb)) as (_ & B & _). destruct (bsearch (scanned n dg) (0 * wpb)) eqn:X; auto. specialize (B 0 ltac:(lia)). simpl in B. lia. }
          rewrite E0, Nat.sub_0_r. f_equal. unfold a. destruct (bsearch_spec (scanned n dg) ((tw / wpb + 1) * wpb)) as (B1 & _ & B2).
          assert (Hl : length (scanned n dg) = n) by (unfold scanned; now rewrite map_length, seq_length). rewrite Hl in *.
          set (q := bsearch (scanned n dg) ((tw / wpb + 1) * wpb)) in *. destruct (Nat.lt_ge_cases q n) as [Hq|]; [|lia]. specialize (B2 Hq). exfalso.
          unfold scanned in B2. rewrite (nth_indep _ 0 (sum_before (work dg) 0)) in B2 by (rewrite map_length, seq_length; lia). rewrite map_nth, seq_nth in B2 by lia. cbn [Nat.add] in B2.
          assert (sum_before (work dg) q <= tw) by (apply sum_before_le; lia). pose proof (Nat.div_mod tw wpb Hw). pose proof (Nat.mod_upper_bound tw wpb Hw). nia. }
      rewrite His. intros E. injection E as <- <-. rewrite <- all_gv. apply flat_good. intros i Hi. apply in_seq in Hi.
      pose proof (@vertex_ok i ltac:(lia) ((fun _ => 0), (fun _ => 0)) ltac:(split; reflexivity)) as H. destruct (vertex_body _ _ _ _ _ _ _ _) as [sp [c cl']]. now destruct H.
    Qed.

    (* the edges *)
    Notation deg := (fun i => length (dg i)).
    Lemma first_above_spec (f : nat -> nat) j N : forall a, f (a + N) <= j < f (a + N + 1) -> (forall x, x <= N -> f (a + x) <= j) ->
      forall M, N + 1 < M -> first_above (map f (seq a M)) j = N + 1.
    Proof.
      induction N as [|N IH]; intros a H1 H2 M HM.
      - destruct M as [|[|M]]; try lia. cbn [seq map first_above]. rewrite Nat.add_0_r in H1. destruct (Nat.leb_spec (f a) j); [|lia]. rewrite Nat.add_1_r in H1. destruct (Nat.leb_spec (f (S a)) j); [lia|]. reflexivity.
      - destruct M as [|M]; [lia|]. cbn [seq map first_above]. pose proof (H2 0 ltac:(lia)) as H0. rewrite Nat.add_0_r in H0. destruct (Nat.leb_spec (f a) j); [|lia].
        rewrite (IH (S a)); [lia| |intros x Hx; replace (S a + x) with (a + S x) by lia; apply H2; lia|lia]. replace (S a + N) with (a + S N) by lia. lia.
    Qed.
    Lemma edge_of_ok i t : i < n -> t < length (dg i) -> edge_of n dg (sum_before deg i + t) = (i, nth t (dg i) 0).
    Proof.
      intros Hi Ht. unfold edge_of, degs. rewrite (@first_above_spec (sum_before deg) (sum_before deg i + t) i 0); [|cbn [Nat.add]; rewrite Nat.add_1_r, sum_before_S; lia| |lia].
      - rewrite Nat.add_sub. assert (E : nth i (map (sum_before deg) (seq 0 (n + 1))) 0 = sum_before deg i).
        { rewrite (nth_indep _ 0 (sum_before deg 0)) by (rewrite map_length, seq_length; lia). rewrite map_nth, seq_nth by lia. reflexivity. }
        rewrite E. f_equal. f_equal. lia.
      - intros x Hx. cbn [Nat.add]. pose proof (@sum_before_le deg x i Hx). lia.
    Qed.
    Lemma edges_all m : m <= n -> map (edge_of n dg) (seq 0 (sum_before deg m)) = flat_map (fun i => map (pair i) (dg i)) (seq 0 m).
    Proof.
      induction m as [|m IH]; intros Hm; [reflexivity|]. rewrite sum_before_S, seq_app, map_app, IH, seq_S, flat_map_app by lia. f_equal. cbn [flat_map Nat.add]. rewrite app_nil_r.
      rewrite <- (local_all (dg m)) at 2. rewrite map_map. replace (seq (sum_before deg m) (length (dg m))) with (map (fun t => sum_before deg m + t) (seq 0 (length (dg m)))).
      - rewrite map_map. apply map_ext_in. intros t Ht. apply in_seq in Ht. apply edge_of_ok; lia.
      - generalize (sum_before deg m) as a. generalize (length (dg m)) as L. intros L a. enough (X : forall b, map (fun t => a + t) (seq b L) = seq (a + b) L) by (rewrite X; f_equal; lia). induction L; intros b; auto. cbn [seq map]. f_equal. rewrite IHL. f_equal. lia.
    Qed.
    Definition ge (e : nat * nat) : list (list nat) := let '(i, l) := e in map (cons i) (map (cons l) (ch (k - 1) (filter (has (dg i)) (dg l)))).
    Variable top : nat.
    Hypothesis Htop : n < top.
    Lemma edge_ok j : 3 <= k -> j < sum_before deg n -> body_ok (edge_body half n dg split k top) (fun j => ge (edge_of n dg j)) j.
    Proof.
      intros Hk3 Hj sp [H1 H2]. unfold edge_body.
      assert (He : In (edge_of n dg j) (flat_map (fun i => map (pair i) (dg i)) (seq 0 n))).
      { rewrite <- (edges_all (le_n n)). apply in_map, in_seq. lia. }
      destruct (edge_of n dg j) as [i l]. apply in_flat_map in He as (i' & Hi & He). apply in_map_iff in He as (l' & Ee & Hl). injection Ee as -> ->. apply in_seq in Hi.
      assert (Hln : l < n) by (apply Hlt with i; auto; lia). pose proof (inc_nodup (@Hinc _ Hln)) as ND.
      assert (Hlen : length (dg l) <= n).
      { rewrite <- (seq_length n 0). apply NoDup_incl_length; auto. intros w Hw. apply in_seq. pose proof (@Hlt _ _ Hln Hw). lia. }
      pose proof (@setup_labels_edge_ok dg top i l (snd sp) ND ltac:(lia) H2) as HS. destruct (setup_labels_edge _ _ _ _ _) as [[B edges] old']. destruct HS as (EB & HR & Ho).
      assert (NDB : NoDup B) by (rewrite EB; now apply NoDup_filter).
      pose proof (@local_rec B edges (k - 2) 0 [l; i] (fst sp) NDB HR ltac:(lia) ltac:(lia) H1) as HL.
      destruct (hrec _ _ _ _ _ _ _ _ _ _) as [[c L'] cl]. destruct HL as [G HL]. split; [split; auto|]. unfold ge. replace (k - 2 + 1) with (k - 1) in G by lia. rewrite <- EB.
      apply (good_cons l) in G. apply (good_cons i) in G. rewrite <- app_assoc in G. destruct (0 <? c); exact G.
    Qed.
    Lemma all_ge : flat_map (fun j => ge (edge_of n dg j)) (seq 0 (sum_before deg n)) = all.
    Proof.
      rewrite <- all_gv. rewrite flat_map_concat_map, <- map_map, <- flat_map_concat_map, edges_all by auto.
      induction (seq 0 n) as [|i l IH]; auto. cbn [flat_map]. rewrite flat_map_app, IH. f_equal. unfold gv, ge. assert (Ek : ch k (dg i) = ch (S (k - 1)) (dg i)) by (f_equal; lia). rewrite Ek. cbn [chains]. clear Ek.
      transitivity (flat_map (fun l => map (cons i) (map (cons l) (ch (k - 1) (filter (has (dg i)) (dg l))))) (dg i)).
      { generalize (dg i) at 1 3 as T. induction T as [|w T IHT]; auto. cbn [map flat_map]. now rewrite IHT. }
      generalize (has (dg i)) as h. intros h. induction (dg i) as [|w T IHT]; auto. cbn [map flat_map]. rewrite map_app, IHT. reflexivity.
    Qed.
    Lemma by_edge_ok res : label = true -> 3 <= k -> by_edge half n dg split label k top res -> exists count cl, res = Some (count, cl) /\ good all count cl.
    Proof.
      intros El Hk3. unfold by_edge. rewrite El. intros (ws & Hp & ->). exists (fst (run_workers (edge_body half n dg split k top) ws)), (snd (run_workers (edge_body half n dg split k top) ws)).
      split; [now destruct (run_workers _ _)|]. rewrite <- all_ge. eapply good_perm; [apply flat_perm, Hp|]. apply workers_ok. intros x Hx. apply edge_ok; auto.
      apply (Permutation_in _ Hp), in_seq in Hx. lia.
    Qed.

    (* enumeration *)
    Lemma enum_ok sp i : i < n -> clean sp -> let '(sp', (c, made)) := enum_body half dg label k sp i in clean sp' /\ c = length (gv i) /\ made = gv i.
    Proof.
      intros Hi [H1 H2]. unfold enum_body. destruct (Nat.eqb_spec (length (dg i)) 0) as [E|E].
      - split; [split; auto|]. unfold gv. rewrite (@chains_short dg ord Hord k (dg i)) by lia. split; auto.
      - pose proof (@setup_ok i (snd sp) Hi H2) as HS. destruct (if label then _ else _) as [edges old']. destruct HS as [HR Ho].
        pose proof (@erec_ok edges (fun v => ord (nth v (dg i) 0)) (local_ord HR) half (fun j => nth j (dg i) 0) k (k - 1) 1 (fst sp) (fset (fun _ => 0) 0 i) (seq 0 (length (dg i)))
          ltac:(lia) ltac:(lia) ltac:(lia) ltac:(lia) ltac:(intros w; rewrite H1; lia) ltac:(intros w _; rewrite H1; lia)) as HL.
        destruct (erec _ _ _ _ _ _ _ _ _) as [[[c L'] b'] made]. destruct HL as (A & B & _ & C). split; [split; [intros w; now rewrite B|auto]|].
        assert (X : map (map (fun x => nth x (dg i) 0)) (chains edges (k - 1 + 1) (seq 0 (length (dg i)))) = ch k (dg i)).
        { rewrite (@local_chains dg (dg i) edges (k - 1 + 1) (inc_nodup (@Hinc _ Hi)) HR) by (intros x Hx; apply in_seq in Hx; lia). rewrite local_all. f_equal. lia. }
        unfold gv. rewrite <- X. split; [now rewrite !map_length|]. rewrite C. cbn [seq map app]. rewrite fset_same, map_map. reflexivity.
    Qed.
    Lemma enum_returns_ok count made : enum_returns half n dg label k count made -> count = length all /\ Permutation made all.
    Proof.
      intros (ws & Hp & -> & Hm).
      assert (HW : forall w, (forall x, In x w -> x < n) -> enum_worker half dg label k w = (length (flat_map gv w), flat_map gv w)).
      { intros w Hw. unfold enum_worker.
        assert (HF : forall its sp tot dn, (forall x, In x its -> x < n) -> clean sp ->
          let '(sp', tot', m') := fold_left (fun acc x => let '(sp, tot, made) := acc in let '(sp', (c, m)) := enum_body half dg label k sp x in (sp', tot + c, made ++ m)) its (sp, tot, dn) in
          tot' = tot + length (flat_map gv its) /\ m' = dn ++ flat_map gv its).
        { induction its as [|x its IH]; intros sp tot dn Hb Hc; cbn [fold_left flat_map]; [rewrite app_nil_r; split; auto|].
          pose proof (@enum_ok sp x (Hb x (or_introl eq_refl)) Hc) as HX. destruct (enum_body _ _ _ _ sp x) as [sp' [c m]]. destruct HX as (HX1 & -> & ->).
          specialize (IH sp' (tot + length (gv x)) (dn ++ gv x) (fun y Hy => Hb y (or_intror Hy)) HX1). destruct (fold_left _ _ _) as [[sp2 t2] m2]. destruct IH as [-> ->].
          rewrite app_length, <- app_assoc. split; auto. lia. }
        specialize (HF w ((fun _ => 0), (fun _ => 0)) 0 [] Hw ltac:(split; reflexivity)). destruct (fold_left _ _ _) as [[sp t] m]. destruct HF as [-> ->]. reflexivity. }
      assert (HA : list_sum (map (fun w => fst (enum_worker half dg label k w)) ws) = length (flat_map gv (concat ws)) /\ flat_map (fun w => snd (enum_worker half dg label k w)) ws = flat_map gv (concat ws)).
      { assert (Hn : forall x, In x (concat ws) -> x < n) by (intros x Hx; apply (Permutation_in _ Hp), in_seq in Hx; lia). clear Hp Hm.
        induction ws as [|w ws IH]; [split; reflexivity|]. cbn [map list_sum fold_right flat_map concat] in *. rewrite HW by (intros x Hx; apply Hn, in_app_iff; now left).
        destruct IH as [E1 E2]; [intros x Hx; apply Hn, in_app_iff; now right|]. unfold list_sum in E1. rewrite E1, E2, flat_map_app, app_length. split; reflexivity. }
      destruct HA as [E1 E2]. rewrite E1. rewrite E2 in Hm. rewrite <- all_gv. split; [apply Permutation_length, flat_perm, Hp|]. rewrite Hm. apply flat_perm, Hp.
    Qed.
  End Body.

  Lemma chains_iff r : forall S c, In c (ch r S) <-> length c = r /\ incl c S /\ ForallOrdPairs (fun v w => In w (dg v)) c.
  Proof.
    induction r as [|r IH]; intros S c; cbn [chains].
    - split; [intros [<-|[]]|intros (H & _); destruct c; [now left|discriminate]]. split; auto. split; [intros x []|constructor].
    - rewrite in_flat_map. setoid_rewrite in_map_iff. setoid_rewrite IH. split.
      + intros (v & Hv & c' & <- & H1 & H2 & H3). split; [simpl; auto|]. split; [intros x [<-|X]; auto; apply H2, filter_In in X; now apply has_In|].
        constructor; auto. rewrite Forall_forall. intros x Hx. apply H2, filter_In in Hx. tauto.
      + intros (H1 & H2 & H3). destruct c as [|v c']; [discriminate|]. exists v. split; [apply H2; now left|]. exists c'. split; auto. inversion H3 as [|? ? H4 H5]; subst.
        split; [simpl in H1; lia|]. split; auto. intros x Hx. apply filter_In. rewrite Forall_forall in H4. split; auto. apply has_In, H2. now right.
  Qed.
  Lemma nodup_cons_flat (F : nat -> list (list nat)) S : NoDup S -> (forall v, In v S -> NoDup (F v)) -> NoDup (flat_map (fun v => map (cons v) (F v)) S).
  Proof.
    induction 1 as [|v S Hv HS IH]; intros H; cbn [flat_map]; [constructor|]. apply NoDup_app_iff. split; [|split].
    - apply FinFun.Injective_map_NoDup; [intros a b E; now injection E|apply H; now left].
    - apply IH. intros w Hw. apply H. now right.
    - intros c Hc Hc'. apply in_map_iff in Hc as (c1 & <- & _). apply in_flat_map in Hc' as (w & Hw & Hc). apply in_map_iff in Hc as (c2 & E & _). injection E as -> _. auto.
  Qed.
  Lemma chains_nodup r : forall S, (forall x, In x S -> x < n) -> NoDup S -> NoDup (ch r S).
  Proof.
    induction r as [|r IH]; intros S HS HN; cbn [chains]; [repeat constructor; auto|]. apply nodup_cons_flat; auto. intros v Hv. apply IH.
    - intros x Hx. apply filter_In in Hx as [Hx _]. eapply Hlt; eauto.
    - apply NoDup_filter. apply inc_nodup, Hinc. auto.
  Qed.

  (* K = 3 *)
  Lemma triangles_ok thresh base bsz count made : 2 <= base -> balanced_returns thresh base bsz n dg count made ->
    good (ch 3 (seq 0 n)) count (flat_map (fun t => let '(a, b, c) := t in [(a, 1); (b, 1); (c, 1)]) made).
  Proof.
    intros Hb H. destruct (@balanced_ok thresh base bsz Hb n dg Hinc Hlt count made H) as [-> Hp].
    pose (trip := fun t : nat * nat * nat => let '(a, b, c) := t in [a; b; c]).
    assert (HC : Permutation (map trip (all_reports n dg)) (ch 3 (seq 0 n))).
    { apply NoDup_Permutation.
      - apply FinFun.Injective_map_NoDup; [|eapply NoDup_reports; eauto]. intros [[a b] c] [[a' b'] c'] E. injection E as -> -> ->. reflexivity.
      - apply chains_nodup; [intros x Hx; apply in_seq in Hx; lia|apply seq_NoDup].
      - intros c. rewrite chains_iff, in_map_iff. split.
        + intros ([[i v] x] & <- & Hin). apply (In_reports Hb) in Hin as (Hi & Hv & Hx & Hx'). pose proof (@Hlt i v Hi Hv) as Hvn. pose proof (@Hlt i x Hi Hx) as Hxn. split; auto. split.
          * intros y [<-|[<-|[<-|[]]]]; apply in_seq; lia.
          * repeat constructor; auto.
        + intros (H1 & H2 & H3). destruct c as [|i [|v [|x [|]]]]; try discriminate. exists (i, v, x). split; auto. apply (In_reports Hb).
          inversion H3 as [|? ? A B]; subst. inversion B as [|? ? C D]; subst. rewrite Forall_forall in A, C. repeat split; [|apply A; now left|apply A; right; now left|apply C; now left].
          assert (X : In i (seq 0 n)) by (apply H2; now left). apply in_seq in X. lia. }
    apply good_perm with (map trip made); [rewrite <- HC; now apply Permutation_map|].
    rewrite <- (Permutation_length Hp). clear. split; [now rewrite map_length|]. intros u. induction made as [|[[a b] c] made IH]; auto.
    cbn [flat_map map]. rewrite total_app, IH. unfold occs at 2. cbn [map list_sum fold_right trip]. fold (list_sum (map (fun c => occ u (map id_ c)) (map trip made))). fold (occs id_ u (map trip made)).
    f_equal. unfold total, occ. cbn [map filter fst]. destruct (a =? u), (b =? u), (c =? u); reflexivity.
  Qed.
End Count.
