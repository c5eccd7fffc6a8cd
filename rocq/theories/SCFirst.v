(* first_search returns the vertices reachable through vertices that are not final *)
From Coq Require Import Permutation.
From Verif Require Import Base ListUtil VSModel VSSpec EMModel EMSpec EMProofs EMProps FAModel FASpec FAProofs SCModel SCSearch.

Section First.
  Variable n : nat.
  Variables outn inn : nat -> list nat.
  Hypothesis G : graph_ok n outn inn.
  Variable L : nat -> label.
  Variables m start : nat.
  Hypothesis Hs : start < n.
  Hypothesis Hu : fst (L start) = false.
  Inductive freach : nat -> Prop :=
  | fr_0 : freach start
  | fr_S : forall u v, freach u -> In v (outn u) -> fst (L v) = false -> freach v.
  Lemma freach_lt v : freach v -> v < n.
  Proof. induction 1; auto. eapply g_out; eauto. Qed.
  Lemma freach_live v : freach v -> fst (L v) = false.
  Proof. destruct 1; auto. Qed.
  Definition par0 : pstate := fun v => if fst (L v) then Some v else None.
  Record finv (par : pstate) (U : vset unit) (F : list nat) : Prop := {
    fi_built : built n U (plain F);
    fi_sound : forall v, par v <> None -> fst (L v) = true \/ freach v;
    fi_final : forall v, fst (L v) = true -> par v <> None;
    fi_start : par start <> None;
    fi_front : forall v, In v F -> freach v;
    fi_closed : forall v, par v <> None -> fst (L v) = false -> In v F \/ forall w, In w (outn v) -> par w <> None }.

  Lemma finv_start : finv (fset par0 start (Some start)) (vs_sparse n [(start, tt)]) [start].
  Proof.
    split.
    - split; [|now right; left]. split; simpl; repeat constructor; auto.
    - intros v Hv. unfold fset, par0 in Hv. destruct (Nat.eqb_spec v start) as [E|E]; [rewrite E; right; constructor|]. destruct (fst (L v)); [now left|congruence].
    - intros v Hv. unfold fset, par0. destruct (v =? start); [discriminate|]. rewrite Hv. discriminate.
    - rewrite fset_same. discriminate.
    - intros v [<-|[]]. constructor.
    - intros v Hv Hl. unfold fset, par0 in Hv. destruct (Nat.eqb_spec v start) as [E|E]; [rewrite E; left; now left|]. rewrite Hl in Hv. congruence.
  Qed.
  Lemma finv_round par U F par' U' fl : finv par U F -> edgeMap_visit n outn inn m None fl U par par' U' -> exists F', finv par' U' F'.
  Proof.
    intros [Hb H1 H2 H3 H4 H5] Hv. destruct (visit_advanced F G Hb Hv) as ((l & Hnd & Hl & Hb' & _) & HA & HN).
    assert (Hkeep : forall v, par v <> None -> par' v <> None).
    { intros v Hp. rewrite HN; auto. intros [X _]. auto. }
    assert (Hnew : forall v, par' v <> None -> par v <> None \/ In v l).
    { intros v Hp. destruct (par v) eqn:E; [left; discriminate|right]. destruct (in_dec Nat.eq_dec v l) as [|Hn]; auto. exfalso.
      rewrite HN in Hp; auto. intros X. apply Hn. now apply Hl. }
    assert (Hlr : forall v, In v l -> freach v).
    { intros v X. apply Hl in X as (Hp & s & S1 & S2). apply fr_S with (u := s); auto. destruct (fst (L v)) eqn:E; auto. exfalso. apply (H2 v E). auto. }
    exists l. split; auto.
    - intros v Hp. apply Hnew in Hp as [Hp|Hp]; auto.
    - intros v Hp Hf. destruct (in_dec Nat.eq_dec v l) as [|Hn]; auto. right. intros w Hw. apply Hnew in Hp as [Hp|Hp]; [|contradiction].
      destruct (H5 v Hp Hf) as [X|X]; [|auto]. destruct (par w) eqn:E; [apply Hkeep; congruence|].
      destruct (HA w) as (s & _ & _ & E'); [split; eauto|]. rewrite E'. discriminate.
  Qed.
  Theorem first_ok flags : first_search n outn inn m L start flags -> forall v, flags v = true <-> freach v.
  Proof.
    intros (par & U & Hl & Hz & Hf). assert (I : exists F, finv par U F).
    { clear Hf Hz. induction Hl as [|par U par' U' Hl [F IH] Hsz Hv]; [exists [start]; exact finv_start|]. eapply finv_round; eauto. }
    destruct I as [F [Hb H1 H2 H3 H4 H5]]. rewrite (built_size F Hb) in Hz. destruct F; [|discriminate].
    intros v. rewrite Hf. split.
    - intros E. destruct (par v) eqn:Ep; [|discriminate]. apply negb_true_iff in E. destruct (H1 v) as [X|X]; [congruence|congruence|auto].
    - intros R. assert (Hp : par v <> None).
      { induction R as [|u w Hru IH Hw Hlv]; auto. destruct (H5 u) as [[]|X]; auto. destruct Hru; auto. }
      destruct (par v); [|congruence]. now rewrite (freach_live R).
  Qed.
  Theorem first_runs : exists flags, first_search n outn inn m L start flags.
  Proof.
    assert (K : forall k par U F, finv par U F -> first_loop n outn inn m start par0 par U ->
      length (filter (fun v => match par v with None => true | _ => false end) (seq 0 n)) < k -> exists par U, first_loop n outn inn m start par0 par U /\ size U = 0).
    { induction k as [|k IH]; intros par U F I H Hk; [lia|]. destruct (Nat.eq_dec (size U) 0) as [E|E]; [eauto|].
      destruct (@visit_progress n outn inn F U par m None no_flags G (fi_built I)) as (par' & U' & Hv).
      destruct (finv_round I Hv) as [F' I']. destruct (Nat.eq_dec (size U') 0) as [E'|E']; [exists par', U'; split; auto; eapply first_round; eauto|].
      apply (IH par' U' F' I'); [eapply first_round; eauto|].
      destruct (visit_advanced F G (fi_built I) Hv) as ((l & Hnd & Hl & Hb' & _) & HA & HN).
      rewrite (built_size l Hb') in E'. destruct l as [|d l]; [now simpl in E'|]. assert (Hd : next_vertex outn par F d) by (apply Hl; now left).
      assert (Hdn : d < n) by (apply (@built_lt n U' (d :: l) d Hb'); now left). destruct (HA d Hd) as (s & _ & _ & Es). destruct Hd as [Hd _].
      assert (X : length (filter (fun v => match par' v with None => true | _ => false end) (seq 0 n)) < length (filter (fun v => match par v with None => true | _ => false end) (seq 0 n))); [|lia].
      assert (Hi : In d (seq 0 n)) by (apply in_seq; lia). assert (Hk' : forall v, par' v = None -> par v = None).
      { intros v Hp. destruct (par v) eqn:Ev; auto. exfalso. rewrite HN in Hp; [congruence|]. intros [Y _]. congruence. }
      clear - Hi Hd Es Hk'. induction (seq 0 n) as [|x xs IHx]; [destruct Hi|]. cbn [filter].
      assert (Hle : forall ys, length (filter (fun v => match par' v with None => true | _ => false end) ys) <= length (filter (fun v => match par v with None => true | _ => false end) ys)).
      { clear - Hk'. induction ys as [|y ys IHy]; auto. cbn [filter]. destruct (par' y) eqn:E1, (par y) eqn:E2; cbn [length]; try lia. apply Hk' in E1. congruence. }
      destruct Hi as [->|Hi].
      - rewrite Es, Hd. cbn [length]. specialize (Hle xs). lia.
      - specialize (IHx Hi). destruct (par' x) eqn:E1, (par x) eqn:E2; cbn [length]; try lia. apply Hk' in E1. congruence. }
    destruct (K _ _ _ _ finv_start (first_start n outn inn m start par0) (Nat.lt_succ_diag_r _)) as (par & U & H & Hz).
    exists (fun v => match par v with Some _ => negb (fst (L v)) | None => false end), par, U. auto.
  Qed.
End First.
