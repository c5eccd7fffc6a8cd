(* Proofs about nghCount and edgeMapCount. *)
Unset Strict Implicit.
From Coq Require Import Sorted Permutation.
From Verif Require Import Base ListUtil GBModel SFModel SFSpec SFProofs HTModel HTSpec KCModel HGModel HGSpec HGProofs HGProps NCModel NCSpec.

Lemma count_flat (nghs : nat -> list nat) vs u : count_occ Nat.eq_dec (flat_map nghs vs) u = edges_from nghs vs u.
Proof. unfold edges_from. induction vs as [|v vs IH]; simpl; auto. now rewrite count_occ_app, IH. Qed.

Lemma count_filter_if (g : nat -> bool) v (l : list nat) : count_occ Nat.eq_dec (filter g l) v = if g v then count_occ Nat.eq_dec l v else 0.
Proof.
  induction l as [|x l IH]; simpl; [now destruct (g v)|]. destruct (g x) eqn:Ex; simpl; destruct (Nat.eq_dec x v) as [->|N]; rewrite ?IH, ?Ex; auto.
Qed.

Section NC.
  Variable n : nat.
  Variable nghs : nat -> list nat.
  Variable cond : nat -> bool.
  Variable empty : nat.
  Hypothesis Hg : on_vertices n nghs.
  Hypothesis He : n <= empty.
  Let keys vs := map (fun u => if cond u then u else empty) (flat_map nghs vs).

  Lemma count_keys vs u : u <> empty -> count_occ Nat.eq_dec (keys vs) u = if cond u then edges_from nghs vs u else 0.
  Proof.
    intros Hu. rewrite <- count_flat. unfold keys. induction (flat_map nghs vs) as [|x l IH]; simpl; [now destruct (cond u)|].
    destruct (cond x) eqn:Ex.
    - destruct (Nat.eq_dec x u) as [->|N]; [rewrite IH, Ex; auto|auto].
    - destruct (Nat.eq_dec empty u) as [->|N]; [contradiction|]. rewrite IH. destruct (Nat.eq_dec x u) as [->|]; auto. now rewrite Ex.
  Qed.
  Lemma edges_from_lt vs u : 0 < edges_from nghs vs u -> u < n.
  Proof. rewrite <- count_flat. intros H. apply count_occ_In, in_flat_map in H as (v & _ & H). eauto. Qed.
  Lemma counted_one_call vs called : counted (filter (nonempty empty) (keys vs)) called -> one_call_each (edges_from nghs vs) cond called.
  Proof.
    intros [Hn Hc]. split; auto. intros u c. rewrite Hc.
    assert (E : count_occ Nat.eq_dec (filter (nonempty empty) (keys vs)) u = if nonempty empty u then count_occ Nat.eq_dec (keys vs) u else 0).
    { generalize (nonempty empty) as g. intros g. apply count_filter_if. }
    rewrite E. unfold nonempty. destruct (Nat.eqb_spec u empty) as [->|N]; simpl.
    - split; [intros [-> H]; lia|]. intros (_ & -> & H). apply edges_from_lt in H. lia.
    - rewrite count_keys by auto. destruct (cond u); split; [intros []; auto|intros (_ & ? & ?); auto|intros [-> ?]; lia|intros [? _]; discriminate].
  Qed.
  Lemma sparse_ok f h shuffle junk vs t : reorders shuffle -> good_params h (keys vs) -> all_empty t ->
    exists called t', count_sparse nghs cond f empty h shuffle junk vs t = Returns (outputs f called) t' /\ all_empty t' /\
      (one_call_each (edges_from nghs vs) cond called \/
       (exists u, In u (flat_map nghs vs) /\ cond u = false) /\ h_medthr h <= length (flat_map nghs vs) /\ counted (keys vs) called).
  Proof.
    intros Hsh (P1 & P2 & P3 & P4 & P5 & P6 & P7 & P8) Ht. unfold count_sparse. destruct vs as [|v vs'].
    - exists [], t. split; auto. split; auto. left. split; [constructor|]. intros u c. simpl. split; [tauto|]. intros (_ & -> & H). unfold edges_from in H. simpl in H. lia.
    - rewrite C51_neighbours by auto. fold (keys (v :: vs')).
      destruct (@C51_histogram (h_hash h) (h_light h) (h_nb h) (h_width h) f empty (h_seqthr h) (h_medthr h) (h_one h) (h_csthr h) (h_csnb h) (h_csorder h) (h_junk h) (h_cjunk h)
        (h_o3 h) (h_o5 h) (h_sample h) (keys (v :: vs')) t P1 P2 P3 P4 P5 P6 P7 P8 Ht) as (called & t' & -> & E1 & _ & E2).
      exists called, t'. split; auto. split; auto. destruct E2 as [E2|(E2 & E3 & E4)].
      + left. now apply counted_one_call.
      + right. split; [|split; auto; unfold keys in E3; now rewrite map_length in E3].
        unfold keys in E2. apply in_map_iff in E2 as (u & Eu & Hu). exists u. split; auto. destruct (cond u) eqn:Ec; auto.
        apply in_flat_map in Hu as (w & _ & Hw). apply Hg in Hw. lia.
  Qed.

  Lemma dense_count_ok vs i : NoDup vs -> dense_count nghs vs i = edges_to nghs vs i.
  Proof.
    intros Hn. unfold dense_count, edges_to. generalize (nghs i) as l. induction vs as [|v vs IH]; intros l.
    - simpl. induction l; simpl; auto.
    - apply NoDup_cons_iff in Hn as [Hv Hn]. simpl. rewrite <- (IH Hn). clear - Hv. induction l as [|x l IH]; simpl; auto.
      destruct (Nat.eqb_spec x v) as [->|N]; simpl.
      + destruct (Nat.eq_dec v v) as [_|]; [|congruence]. assert (existsb (Nat.eqb v) vs = false) as ->.
        { apply not_true_iff_false. intros H. apply existsb_exists in H as (y & Hy & E). apply Nat.eqb_eq in E. subst. auto. }
        rewrite IH. lia.
      + destruct (Nat.eq_dec x v) as [|_]; [congruence|]. destruct (existsb (Nat.eqb x) vs); simpl; rewrite IH; lia.
  Qed.
  Lemma undirected_count vs u : undirected n nghs -> vertex_set n vs -> u < n -> edges_to nghs vs u = edges_from nghs vs u.
  Proof. intros HU [_ Hv] Hu. unfold edges_to, edges_from. f_equal. apply map_ext_in. intros v Hin. apply HU; auto. Qed.

  Lemma dense_calls_ok order vs : Permutation order (seq 0 n) -> vertex_set n vs ->
    NoDup (map fst (dense_calls nghs cond order vs)) /\
    forall u c, In (u, c) (dense_calls nghs cond order vs) <-> u < n /\ cond u = true /\ c = edges_to nghs vs u /\ 0 < c.
  Proof.
    clear keys He empty. intros Ho [Hn Hv].
    assert (E : dense_calls nghs cond order vs = flat_map (fun i => if cond i && (0 <? edges_to nghs vs i) then [(i, edges_to nghs vs i)] else []) order).
    { unfold dense_calls. destruct vs as [|v vs'].
      - symmetry. assert (H : forall l, flat_map (fun i => if cond i && (0 <? edges_to nghs [] i) then [(i, edges_to nghs [] i)] else []) l = []); [|apply H].
        unfold edges_to. simpl. intros l. induction l; simpl; auto. rewrite andb_false_r. auto.
      - apply flat_map_ext. intros i. cbv zeta. rewrite dense_count_ok by auto. destruct (cond i); auto. }
    rewrite E. assert (Hno : NoDup order) by (apply (Permutation_NoDup (Permutation_sym Ho)), seq_NoDup). split.
    - clear - Hno. induction Hno as [|i order Hi Hno IH]; simpl; [constructor|]. destruct (cond i && _); simpl; auto. constructor; auto.
      intros H. apply in_map_iff in H as ([u c] & <- & H). apply in_flat_map in H as (j & Hj & H). destruct (cond j && _); simpl in H; [|contradiction]. destruct H as [[= -> _]|[]]. contradiction.
    - intros u c. rewrite in_flat_map. split.
      + intros (i & Hi & H). destruct (cond i) eqn:Ec; simpl in H; [|contradiction]. destruct (Nat.ltb_spec 0 (edges_to nghs vs i)); simpl in H; [|contradiction].
        destruct H as [[= <- <-]|[]]. apply (Permutation_in _ Ho), in_seq in Hi. repeat split; auto; lia.
      + intros (Hu & Ec & -> & Hc). exists u. split; [apply (Permutation_in _ (Permutation_sym Ho)), in_seq; lia|]. rewrite Ec. apply Nat.ltb_lt in Hc. rewrite Hc. now left.
  Qed.
  Lemma dense_one_call order vs : Permutation order (seq 0 n) -> vertex_set n vs -> undirected n nghs ->
    one_call_each (edges_from nghs vs) cond (dense_calls nghs cond order vs).
  Proof.
    intros Ho Hv HU. destruct (dense_calls_ok Ho Hv) as [H1 H2]. split; auto. intros u c. rewrite H2. split.
    - intros (Hu & Ec & -> & Hc). rewrite undirected_count in * by auto. auto.
    - intros (Ec & -> & Hc). pose proof (edges_from_lt Hc) as Hu. rewrite undirected_count by auto. auto.
  Qed.
End NC.

(* the result of the initialised dense version *)
Lemma members_perm n (out : nat -> bool * nat) (L : list (nat * nat)) : NoDup L ->
  (forall u w, In (u, w) L <-> u < n /\ fst (out u) = true /\ w = snd (out u)) -> Permutation (dense_members n out) L.
Proof.
  intros HL H. apply NoDup_Permutation; auto.
  - unfold dense_members. assert (G : forall s m, NoDup (flat_map (fun i => if fst (out i) then [(i, snd (out i))] else []) (seq s m)) /\ forall p, In p (flat_map (fun i => if fst (out i) then [(i, snd (out i))] else []) (seq s m)) -> s <= fst p).
    { intros s m. revert s. induction m as [|m IH]; intros s; simpl; [split; [constructor|tauto]|]. destruct (IH (S s)) as [I1 I2]. split.
      - destruct (fst (out s)); auto. simpl. constructor; auto. intros Hin. apply I2 in Hin. simpl in Hin. lia.
      - intros p Hp. apply in_app_or in Hp as [Hp|Hp]; [|apply I2 in Hp; lia]. destruct (fst (out s)); simpl in Hp; [|contradiction]. destruct Hp as [<-|[]]. simpl. lia. }
    apply G.
  - intros [u w]. rewrite H. unfold dense_members. rewrite in_flat_map. split.
    + intros (i & Hi & Hin). apply in_seq in Hi. destruct (fst (out i)) eqn:E; simpl in Hin; [|contradiction]. destruct Hin as [[= <- <-]|[]]. repeat split; auto; lia.
    + intros (Hu & E & ->). exists u. split; [apply in_seq; lia|]. rewrite E. now left.
Qed.
Lemma em_out_ok nghs f order vs u : NoDup order ->
  em_out nghs f order vs u = if existsb (Nat.eqb u) order
    then match (if 0 <? dense_count nghs vs u then f (u, dense_count nghs vs u) else None) with Some q => (true, snd q) | None => (false, 0) end else (false, 0).
Proof.
  unfold em_out. intros Hn.
  assert (G : forall o (out : nat -> bool * nat), NoDup o -> (In u o -> snd (out u) = 0) -> fold_left (fun out i => let c := dense_count nghs vs i in
      if 0 <? c then match f (i, c) with Some q => fset out i (true, snd q) | None => fset out i (false, snd (out i)) end
      else fset out i (false, snd (out i))) o out u = if existsb (Nat.eqb u) o
    then match (if 0 <? dense_count nghs vs u then f (u, dense_count nghs vs u) else None) with Some q => (true, snd q) | None => (false, 0) end else out u).
  { induction o as [|i o IH]; intros out Hno Hz; [reflexivity|]. cbn [fold_left existsb]. apply NoDup_cons_iff in Hno as [Hi Hno]. rewrite IH; auto.
    - destruct (Nat.eqb_spec u i) as [->|N]; cbn [orb].
      + assert (existsb (Nat.eqb i) o = false) as ->.
        { apply not_true_iff_false. intros H. apply existsb_exists in H as (y & Hy & E). apply Nat.eqb_eq in E. subst. auto. }
        cbv zeta. destruct (0 <? dense_count nghs vs i); [destruct (f (i, _))|]; rewrite fset_same; auto; now rewrite Hz by now left.
      + destruct (existsb (Nat.eqb u) o); auto. cbv zeta. destruct (0 <? dense_count nghs vs i); [destruct (f (i, _))|]; now rewrite fset_other by auto.
    - intros Hu. assert (u <> i) by congruence. cbv zeta. destruct (0 <? dense_count nghs vs i); [destruct (f (i, _))|]; rewrite fset_other by auto; apply Hz; now right. }
  apply G; auto.
Qed.
Lemma outputs_NoDup f (calls : list (nat * nat)) : keeps_vertex f -> NoDup (map fst calls) -> NoDup (outputs f calls) /\ NoDup (map fst (outputs f calls)).
Proof.
  intros Hf Hn. assert (H : NoDup (map fst (outputs f calls))); [|split; auto; apply NoDup_map_inv in H; auto].
  unfold outputs. induction calls as [|p calls IH]; simpl; [constructor|]. simpl in Hn. apply NoDup_cons_iff in Hn as [Hp Hn]. destruct (f p) as [q|] eqn:E; simpl; auto.
  constructor; auto. rewrite (Hf _ _ E). intros H. apply Hp. apply in_map_iff in H as (r & Er & H). apply in_flat_map in H as (p' & Hp' & H).
  destruct (f p') as [q'|] eqn:E'; [|contradiction]. destruct H as [<-|[]]. apply Hf in E'. rewrite <- Er, E'. now apply in_map.
Qed.
Lemma em_dense_ok n nghs f order vs t : Permutation order (seq 0 n) -> vertex_set n vs -> keeps_vertex f ->
  exists res, em_dense n nghs f false order vs t = Returns res t /\ Permutation res (outputs f (dense_calls nghs (fun _ => true) order vs)).
Proof.
  intros Ho Hv Hf. unfold em_dense. destruct vs as [|v0 vs']; [exists []; split; auto; apply Permutation_refl|]. set (vs := v0 :: vs') in *.
  eexists. split; [reflexivity|]. destruct (@dense_calls_ok n nghs (fun _ => true) order vs Ho Hv) as [H1 H2].
  assert (Hno : NoDup order) by (apply (Permutation_NoDup (Permutation_sym Ho)), seq_NoDup).
  apply members_perm; [now apply outputs_NoDup|]. intros u w. unfold outputs. rewrite in_flat_map. rewrite em_out_ok by auto. rewrite dense_count_ok by apply Hv. split.
  - intros ([u' c] & Hc & Hin). destruct (f (u', c)) as [q|] eqn:E; [|contradiction]. destruct Hin as [->|[]]. pose proof (Hf _ _ E) as Hu. simpl in Hu. subst u'.
    apply H2 in Hc as (Hu & _ & -> & Hpos). split; auto. assert (existsb (Nat.eqb u) order = true) as ->.
    { apply existsb_exists. exists u. split; [apply (Permutation_in _ (Permutation_sym Ho)), in_seq; lia|apply Nat.eqb_refl]. }
    apply Nat.ltb_lt in Hpos. rewrite Hpos, E. auto.
  - intros (Hu & Hin & ->). destruct (existsb (Nat.eqb u) order); [|discriminate]. destruct (Nat.ltb_spec 0 (edges_to nghs vs u)) as [Hpos|]; [|discriminate].
    destruct (f (u, edges_to nghs vs u)) as [q|] eqn:E; [|discriminate]. exists (u, edges_to nghs vs u). split; [apply H2; auto|]. rewrite E. left.
    apply Hf in E. simpl in *. rewrite <- E. now destruct q.
Qed.
Lemma free_out_ok nghs cond f vs order : (forall p, f p <> None) -> NoDup order -> forall mem, exists out,
  free_out nghs cond f order vs mem = Some out /\
  forall u, (~ In u order \/ cond u = false -> out u = mem u) /\
    (In u order -> cond u = true -> 0 < dense_count nghs vs u -> Some (out u) = option_map (fun q => (true, snd q)) (f (u, dense_count nghs vs u))) /\
    (In u order -> cond u = true -> dense_count nghs vs u = 0 -> fst (out u) = false).
Proof.
  intros Hf Hn. induction Hn as [|i order Hi Hn IH]; intros mem; [exists mem; split; auto; intros u; split; auto; split; contradiction|].
  assert (Hstep : exists mem', free_out nghs cond f (i :: order) vs mem = free_out nghs cond f order vs mem' /\ (forall u, u <> i -> mem' u = mem u) /\ (cond i = false -> mem' i = mem i) /\
        (cond i = true -> 0 < dense_count nghs vs i -> Some (mem' i) = option_map (fun q => (true, snd q)) (f (i, dense_count nghs vs i))) /\
        (cond i = true -> dense_count nghs vs i = 0 -> fst (mem' i) = false)).
  { cbn [free_out]. cbv zeta. destruct (cond i); [|exists mem; repeat split; auto; discriminate]. destruct (Nat.ltb_spec 0 (dense_count nghs vs i)) as [Hc|Hc].
    - destruct (f (i, dense_count nghs vs i)) as [q|] eqn:E; [|now apply Hf in E]. exists (fset mem i (true, snd q)). rewrite fset_same. repeat split; auto; try discriminate; [|lia]. intros u Hu. now rewrite fset_other.
    - exists (fset mem i (false, snd (mem i))). rewrite fset_same. repeat split; auto; try discriminate; [|lia]. intros u Hu. now rewrite fset_other. }
  destruct Hstep as (mem' & -> & Ho & H1 & H2 & H3). destruct (IH mem') as (out & E & Hout). exists out. split; auto. intros u. destruct (Hout u) as (O1 & O2 & O3).
  destruct (Nat.eq_dec u i) as [->|N].
  - rewrite O1 by auto. repeat split; auto. intros [H|H]; [exfalso; apply H; now left|auto].
  - repeat split.
    + intros H. rewrite O1, Ho; auto. destruct H as [H|H]; auto. left. intros Hu. apply H. now right.
    + intros [H|H]; [congruence|auto].
    + intros [H|H]; [congruence|auto].
Qed.
