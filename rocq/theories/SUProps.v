(* C77: the union-find spanning forests. *)
From Verif Require Import Base ListUtil UFSpec FRSpec CTSpec SPProofs JATree UFProps JAProps SUModel SUProofs SUForest.
Unset Strict Implicit.

(* the strategies of get_unite_function other than UniteRemCAS *)
Definition strategy (o : unite_option) : Prop :=
  match o with OUnite _ | OEarly | OND _ | ORemLock _ _ => True | _ => False end.
Lemma strategy_ok o : strategy o -> (match o with ORemCAS _ _ => False | _ => True end) /\ o <> OCompress.
Proof. destruct o; simpl; try easy; split; auto; discriminate. Qed.

Definition id0 (i : nat) : nat := i.
Definition none0 (i : nat) : option (nat * nat) := None.
Lemma none_list n : edges_of n none0 = [].
Proof. unfold edges_of, none0. generalize (seq 0 n). intros l. induction l; simpl; auto. Qed.
Lemma fst_inv_init n G : fst_inv n G none0 (mkM id0 none0 (fun _ => None)).
Proof.
  assert (E : JAForest.glist none0 (seq 0 n) = []) by apply none_list.
  split; try rewrite E; auto.
  - intros l1 e l2 H. destruct l1; discriminate.
  - easy.
  - intros x y Hx Hy. simpl. split.
    + intros X. assert (x = y) as ->; [|exists y; split; apply r_here; auto].
      clear Hx Hy. induction X as [a b X|a|a b _ IH|a b c _ IH1 _ IH2]; [easy|auto|auto|congruence].
    + intros (r & A & B). inversion A as [z Ez|z s Ez]; subst; [|exfalso; apply Ez; reflexivity].
      inversion B as [z Ez'|z s Ez']; subst; [apply rst_refl|exfalso; apply Ez'; reflexivity].
Qed.

(* joined edges of a symmetric graph: all connected vertices *)
Lemma joined_all n P G : (forall x, x < n -> P x <= x) -> edges_in_range n G ->
  (forall u v, In (u, v) G -> same P u v) -> forall x y, x < n -> y < n -> connected G x y -> same P x y.
Proof.
  intros HP HG HJ x y Hx Hy C. assert (GT : tree n (key n) P) by apply (@good_tree n (mkM P none0 (fun _ => None)) HP).
  assert (X : x = y \/ same P x y).
  { clear Hx Hy. induction C as [a b C|a|a b _ IH|a b c _ IH1 _ IH2]; auto.
    - destruct IH as [->|IH]; auto. right. now apply same_sym.
    - destruct IH1 as [->|IH1]; auto. destruct IH2 as [<-|IH2]; auto. right. eapply same_trans; eauto. }
  destruct X as [->|X]; auto. eapply same_refl; eauto.
Qed.
Lemma finish n o (es G : list (nat * nat)) sched P E : edges_in_range n G -> incl es G -> strategy o ->
  (forall x, x < n -> P x <= x) -> fst_inv n G E (mkM P E (fun _ => None)) ->
  (forall P', (forall x, x < n -> P' x <= x) -> (forall x y, x < n -> y < n -> same P x y -> same P' x y) ->
     (forall u v, In (u, v) es -> same P' u v) -> forall u v, In (u, v) G -> same P' u v) ->
  let s := phase n o es sched P E in
  all_done s ->
  spanning_forest (unweighted G) (unweighted (edges_of n (ed (fst s)))) /\
  forall x y, x < n -> y < n -> (same_tree (pa (fst s)) x y <-> connected G x y).
Proof.
  intros HG Hes Hst HP F Hj s D. destruct (strategy_ok Hst) as [Ho Hc].
  destruct (@phase_ok n o Ho G es sched P E HP) as (G' & _ & M & S & D'); auto.
  { intros x y H. apply Hes in H. destruct (HG _ _ H). auto. }
  fold s in G', M, S, D'. destruct (D' D) as [F' [Bad|J]]; [easy|].
  assert (X : forall x y, x < n -> y < n -> connected G x y -> same (pa (fst s)) x y) by (apply joined_all; auto; apply Hj; auto).
  split.
  - apply (@spanning_of n); auto; [|apply (f_forest F')|].
    + intros [x y] H. now apply (f_in F').
    + intros x y Hx Hy C. apply (f_conn F'); auto.
  - intros x y Hx Hy. rewrite <- same_spec. split; auto.
Qed.

(* without sampling *)
Theorem C77_spanning_forest : forall n o (G : list (nat * nat)) (sched : list nat),
  symmetric G -> edges_in_range n G -> strategy o ->
  let s := phase n o (halved G) sched id0 none0 in
  all_done s ->
  spanning_forest (unweighted G) (unweighted (edges_of n (ed (fst s)))) /\
  forall x y, x < n -> y < n -> (same_tree (pa (fst s)) x y <-> connected G x y).
Proof.
  intros n o G sched Hs HG Hst. apply finish; auto using fst_inv_init.
  - intros e He. now apply filter_In in He.
  - intros P' HP' _ J u v Huv. destruct (HG _ _ Huv) as [Hu Hv]. destruct (Nat.lt_trichotomy u v) as [L|[->|L]].
    + apply same_sym, J. apply filter_In. split; [now apply Hs|]. simpl. now apply Nat.ltb_lt.
    + eapply same_refl; [|exact Hv]. apply (@good_tree n (mkM P' none0 (fun _ => None)) HP').
    + apply J. apply filter_In. split; auto. simpl. now apply Nat.ltb_lt.
Qed.
Print Assumptions C77_spanning_forest.

(* at every moment: no access outside the arrays, and the trees join connected vertices only *)
Theorem C77_sound : forall n o (G : list (nat * nat)) (sched : list nat),
  edges_in_range n G -> strategy o ->
  let s := phase n o (halved G) sched id0 none0 in
  (forall e, ~ In (e, Fault) (snd s)) /\
  forall x y, x < n -> y < n -> same_tree (pa (fst s)) x y -> connected G x y.
Proof.
  intros n o G sched HG Hst s. destruct (strategy_ok Hst) as [Ho _].
  destruct (@phase_ok n o Ho G (halved G) sched id0 none0) as (_ & Hf & _ & S & _); auto using fst_inv_init.
  { intros x y H. apply filter_In in H as [H _]. destruct (HG _ _ H). auto. }
  fold s in Hf, S. split; [intros e He; apply Hf; eauto|]. intros x y Hx Hy. rewrite <- same_spec. auto.
Qed.
Print Assumptions C77_sound.

(* -- k-out sampling ---------------------------------------------------------------------------- *)
Lemma done_all_ok s : done_all s = true -> all_done s.
Proof.
  unfold done_all, all_done. rewrite forallb_forall. intros H e st Hin. specialize (H _ Hin). simpl in H. destruct st; auto; discriminate.
Qed.
Lemma kout_inv n G rounds : edges_in_range n G -> Forall (fun r => incl (fst (fst r)) G) rounds -> forall P0 E0 P E,
  (forall x, x < n -> P0 x <= x) -> fst_inv n G E0 (mkM P0 E0 (fun _ => None)) ->
  fold_left (kround n) rounds (Some (P0, E0)) = Some (P, E) ->
  (forall x, x < n -> P x <= x) /\ fst_inv n G E (mkM P E (fun _ => None)) /\
  (forall x y, x < n -> y < n -> same P0 x y -> same P x y) /\
  (forall r, In r rounds -> forall u v, In (u, v) (fst (fst r)) -> same P u v).
Proof.
  intros HG HR. induction HR as [|[[es sl] sc] rounds Hr HR IH]; intros P0 E0 P E HP F H; simpl in H.
  - injection H as <- <-. repeat (split; auto); easy.
  - simpl in Hr.
    destruct (@phase_ok n OLink I G es sl P0 E0 HP) as (G1 & _ & M1 & _ & D1); auto.
    { intros x y Hx. apply Hr in Hx. destruct (HG _ _ Hx). auto. }
    set (s1 := phase n OLink es sl P0 E0) in *.
    set (us := map (fun u => (u, u)) (seq 0 n)) in *.
    assert (Hnone : fold_left (kround n) rounds None = None) by (clear; induction rounds; auto).
    destruct (done_all s1 && done_all (phase n OCompress us sc (pa (fst s1)) (ed (fst s1)))) eqn:Ed; [|congruence].
    apply andb_true_iff in Ed as [Ed1 Ed2]. destruct (D1 (done_all_ok Ed1)) as [F1 [Bad|J1]]; [discriminate|].
    assert (F1' : forall E', incl G E' -> fst_inv n E' (ed (fst s1)) (mkM (pa (fst s1)) (ed (fst s1)) (fun _ => None))).
    { intros E' Hi. destruct F1 as [A B C D]. split; auto. intros x y Hxy. destruct (B _ _ Hxy) as (B1 & B2 & B3). auto. }
    destruct (@phase_ok n OCompress I (G ++ us) us sc (pa (fst s1)) (ed (fst s1)) G1) as (G2 & _ & M2 & _ & D2); auto.
    { intros x y Hx. split; [|split; [|apply in_or_app; auto]]; unfold us in Hx; apply in_map_iff in Hx as (u & Eu & Hu); injection Eu as <- <-; apply in_seq in Hu; lia. }
    { apply F1'. intros e He. apply in_or_app. auto. }
    set (s2 := phase n OCompress us sc (pa (fst s1)) (ed (fst s1))) in *.
    destruct (D2 (done_all_ok Ed2)) as [F2 _].
    (* the compression adds no edge *)
    assert (F2' : fst_inv n G (ed (fst s2)) (mkM (pa (fst s2)) (ed (fst s2)) (fun _ => None))).
    { destruct F2 as [A B C D]. split; auto. intros x y Hxy. destruct (B _ _ Hxy) as (B1 & B2 & _). repeat (split; auto).
      assert (Hed : ed (fst s2) = ed (fst s1)).
      { unfold s2, phase. clear. set (i0 := map _ us).
        assert (H0 : forall e st, In (e, st) i0 -> match st with Z0 | Z1 _ | Z2 _ _ | Z3 | Z4 _ | Z5 _ | Done | Fault => True | _ => False end).
        { unfold i0. intros e st Hin. apply in_map_iff in Hin as (p & Ep & _). injection Ep as _ <-. exact I. }
        change (ed (fst s1)) with (ed (fst ((mkM (pa (fst s1)) (ed (fst s1)) (fun _ => None), i0) : sys))) at 2.
        generalize ((mkM (pa (fst s1)) (ed (fst s1)) (fun _ => None), i0) : sys) (H0 : forall e st, In (e, st) (snd ((mkM (pa (fst s1)) (ed (fst s1)) (fun _ => None), i0) : sys)) -> _).
        clear. induction sc as [|t l IH]; intros s H; simpl; auto. rewrite IH.
        - unfold sys_step. destruct (nth_error (snd s) t) as [[[x y] st]|] eqn:Et; auto. apply nth_error_In in Et. apply H in Et.
          unfold tstep. destruct (negb (is_done st) && (n <=? taddr x y st)); auto. destruct st; try contradiction; auto.
        - intros e st Hin. unfold sys_step in Hin. destruct (nth_error (snd s) t) as [[[x y] st0]|] eqn:Et; [|exact (H _ _ Hin)]. apply nth_error_In in Et. apply H in Et.
          destruct (tstep n OCompress t (x, y) (fst s) st0) as [m' st'] eqn:Es. simpl in Hin. apply In_nth_error in Hin as [k Hk].
          destruct (Nat.eq_dec k t) as [->|Hkt].
          + assert (Hlt : t < length (snd s)).
            { destruct (Nat.lt_ge_cases t (length (snd s))); auto. exfalso. assert (X : nth_error (lset (snd s) t (x, y, st')) t <> None) by congruence.
              apply nth_error_Some in X. rewrite length_lset in X. lia. }
            rewrite nth_error_lset_same in Hk by auto. injection Hk as <- <-.
            unfold tstep in Es. destruct (negb (is_done st0) && (n <=? taddr x y st0)); [injection Es as <- <-; exact I|].
            destruct st0; try contradiction; injection Es as <- <-; auto. destruct (a =? pa (fst s) t0); exact I.
          + rewrite nth_error_lset_other in Hk by auto. apply nth_error_In in Hk. exact (H _ _ Hk). }
      rewrite Hed in Hxy. destruct F1 as [_ B' _ _]. now apply B'. }
    destruct (IH _ _ P E G2 F2' H) as (A & B & C & D). split; auto. split; auto. split; [auto|].
    intros r [<-|Hin] u v Huv; [|eauto]. simpl in Huv. destruct (HG u v (Hr _ Huv)). apply C; auto.
Qed.

(* sampled first: any neighbours are linked in the rounds; the vertices whose parent is freq are
   skipped afterwards *)
Theorem C77_spanning_forest_sampled : forall n o (G : list (nat * nat)) rounds P E freq (sched : list nat),
  symmetric G -> edges_in_range n G -> strategy o ->
  Forall (fun r => incl (fst (fst r)) G) rounds -> kout n rounds = Some (P, E) ->
  let s := phase n o (skipping P freq G) sched P E in
  all_done s ->
  spanning_forest (unweighted G) (unweighted (edges_of n (ed (fst s)))) /\
  forall x y, x < n -> y < n -> (same_tree (pa (fst s)) x y <-> connected G x y).
Proof.
  intros n o G rounds P E freq sched Hs HG Hst HR HK.
  destruct (@kout_inv n G rounds HG HR id0 none0 P E) as (HP & F & _ & _); auto using fst_inv_init.
  apply finish; auto.
  - intros e He. now apply filter_In in He.
  - intros P' HP' M J u v Huv. destruct (HG _ _ Huv) as [Hu Hv].
    destruct (Nat.eqb_spec (P u) freq) as [Eu|Eu].
    + destruct (Nat.eqb_spec (P v) freq) as [Ev|Ev].
      * apply M; auto. assert (GT : tree n (key n) P) by apply (@good_tree n (mkM P none0 (fun _ => None)) HP).
        eapply same_trans; [eapply same_up; eauto|]. rewrite Eu, <- Ev. apply same_sym. eapply same_up; eauto.
      * apply same_sym, J. apply filter_In. split; [now apply Hs|]. simpl. apply negb_true_iff. now apply Nat.eqb_neq.
    + apply J. apply filter_In. split; auto. simpl. apply negb_true_iff. now apply Nat.eqb_neq.
Qed.
Print Assumptions C77_spanning_forest_sampled.

(* UniteRemCAS reads p_ry before the swap and does not exchange it: when the larger root is ry the
   CAS writes ry over itself, the edge is recorded, nothing is linked.  Already the sequential run
   over the path 0 - 3 - 2 - 4 - 1 loses an edge, with every find and splice *)
Definition path : list (nat * nat) := [(0, 3); (1, 4); (2, 3); (2, 4); (3, 0); (3, 2); (4, 1); (4, 2)].
Definition in_order : list nat := concat (map (fun t => repeat t 40) (seq 0 4)).
Theorem C77_rem_cas_refuted : forall f sp,
  symmetric path /\ edges_in_range 5 path /\
  let s := phase 5 (ORemCAS f sp) (halved path) in_order id0 none0 in
  all_done s /\ ~ (forall x y, connected path x y -> connected (edges_of 5 (ed (fst s))) x y).
Proof.
  intros f sp. split; [|split].
  - intros u v H. simpl in H |- *. intuition congruence.
  - intros u v H. simpl in H. intuition (try match goal with X : (_, _) = _ |- _ => injection X as <- <- end; lia).
  - intros s. assert (E : done_all s = true /\ edges_of 5 (ed (fst s)) = [(4, 2); (3, 0); (4, 1)]).
    { subst s. destruct f, sp; split; vm_compute; reflexivity. }
    destruct E as [E1 E2]. split; [now apply done_all_ok|]. rewrite E2. intros H.
    assert (C : connected path 3 2) by (apply rst_step; simpl; auto 10). apply H in C.
    assert (X : forall a b, connected [(4, 2); (3, 0); (4, 1)] a b -> (a = 0 \/ a = 3 <-> b = 0 \/ b = 3)).
    { clear. intros a b X. induction X as [a b X|a|a b _ IH|a b c _ IH1 _ IH2]; [|tauto|tauto|tauto].
      simpl in X. destruct X as [X|[X|[X|[]]]]; injection X as <- <-; lia. }
    apply X in C. lia.
Qed.
Print Assumptions C77_rem_cas_refuted.

(* BFS sampling records the pair (i, src) for every reached vertex, which need not be an edge: the
   path 0 - 1 - 2 from 0, nothing left to do *)
Theorem C77_bfs_sampling_refuted : let G := [(0, 1); (1, 0); (1, 2); (2, 1)] in
  symmetric G /\ edges_in_range 3 G /\ (forall v, In v [0; 1; 2] <-> connected G 0 v) /\
  forall o, let s := phase 3 o (skipping (bfs_parents 0 [0; 1; 2]) 0 G) [] (bfs_parents 0 [0; 1; 2]) (bfs_edges 0 [0; 1; 2]) in
  all_done s /\ In (2, 0) (edges_of 3 (ed (fst s))) /\ ~ In (2, 0) G.
Proof.
  intros G. split; [|split; [|split]].
  - intros u v H. simpl in H |- *. intuition congruence.
  - intros u v H. simpl in H. intuition (try match goal with X : (_, _) = _ |- _ => injection X as <- <- end; lia).
  - intros v. split.
    + assert (C1 : connected G 0 1) by (apply rst_step; simpl; auto).
      simpl. intros [<-|[<-|[<-|[]]]]; [apply rst_refl|exact C1|]. eapply rst_trans; [exact C1|]. apply rst_step. simpl. auto.
    + intros C. assert (X : forall a b, connected G a b -> (a < 3 <-> b < 3)).
      { clear. intros a b X. induction X as [a b X|a|a b _ IH|a b c _ IH1 _ IH2]; [|tauto|tauto|tauto].
        simpl in X. destruct X as [X|[X|[X|[X|[]]]]]; injection X as <- <-; lia. }
      apply X in C. simpl. lia.
  - intros o s. split; [intros e st []|]. split; [vm_compute; auto|]. simpl. intuition congruence.
Qed.
Print Assumptions C77_bfs_sampling_refuted.

(* -- the hypotheses are met -------------------------------------------------------------------- *)
Definition all_options : list unite_option :=
  [OEarly] ++ flat_map (fun f => [OUnite f; OND f; ORemLock f SplitOne; ORemLock f HalveOne]) [FNaive; FCompress; FSplit; FHalve].
(* the four calls take turns *)
Definition turns : list nat := concat (repeat [0; 3; 1; 2] 60).
Example C77_example : Forall strategy all_options /\
  map (fun o => let s := phase 5 o (halved path) turns id0 none0 in (done_all s, length (edges_of 5 (ed (fst s))))) all_options =
  repeat (true, 4) (length all_options).
Proof. split; [repeat constructor|vm_compute; reflexivity]. Qed.
(* two rounds of sampling join 0 3 and 4 1; 0 is skipped *)
Definition ex_rounds : list (list (nat * nat) * list nat * list nat) :=
  [([(3, 0); (4, 1); (1, 4)], concat (repeat [0; 1; 2] 20), concat (repeat [4; 3; 2; 1; 0] 20)); ([], [], concat (repeat [4; 3; 2; 1; 0] 20))].
Example C77_example_sampled : Forall (fun r => incl (fst (fst r)) path) ex_rounds /\
  match kout 5 ex_rounds with
  | Some (P, E) => map P (seq 0 5) = [0; 1; 2; 0; 1] /\ skipping P 0 path = [(1, 4); (2, 3); (2, 4); (4, 1); (4, 2)] /\
      map (fun o => let s := phase 5 o (skipping P 0 path) (concat (repeat [0; 3; 1; 4; 2] 60)) P E in
        (done_all s, length (edges_of 5 (ed (fst s))))) all_options = repeat (true, 4) (length all_options)
  | None => False
  end.
Proof.
  split; [|vm_compute; auto]. constructor; [|constructor; [|constructor]]; intros e H; simpl in H |- *; intuition (subst; auto 10).
Qed.
