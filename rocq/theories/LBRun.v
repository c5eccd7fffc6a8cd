(* An executable schedule of process_batch, for the witnesses of C90. *)
From Coq Require Import Permutation.
From Verif Require Import Base EMModel SVModel LTModel LBModel.
Unset Strict Implicit.

Definition rounds (k m : nat) : list nat := flat_map (fun t => repeat t k) (seq 0 m).
Definition ufin (s : ustate) : bool := forallb (fun pc => match pc with UT [] => true | _ => false end) (uthr s).
Definition jfin (s : jstate) : bool := forallb (fun x => match snd x with JDone _ => true | _ => false end) (jthr s).
Lemma ufin_ok s : ufin s = true -> ufinished s.
Proof. intros H pc Hin. unfold ufin in H. rewrite forallb_forall in H. specialize (H pc Hin). destruct pc as [| |[|]|]; try discriminate. reflexivity. Qed.
Lemma jfin_ok s : jfin s = true -> jfinished s.
Proof. intros H u pc Hin. unfold jfin in H. rewrite forallb_forall in H. specialize (H _ Hin). cbn in H. destruct pc; try discriminate. eauto. Qed.

Section Run.
  Variable largest : nat.
  Variables (c : connect_option) (o : update_option) (full alter : bool).
  Definition one_round (E : list (nat * nat)) (s : lbst) : option (list (nat * nat) * lbst * bool) :=
    let calls := flat_map (connect_calls largest c (bP s)) E in
    let mc := msg_writes largest calls (bM s) in
    let us := uexec largest o (fst mc) (rounds 10 (length E)) (ustart (bP s) (bF s) E) in
    let F1 := clear_flags (uP us) E (uF us) in
    let vs := shortcut_cells E F1 in
    let js := jexec largest (rounds 20 (length vs)) (jstart (B1 full) (uP us) vs) in
    let F2 := fun x => F1 x || existsb (Nat.eqb x) vs in
    if ufin us && jfin js
    then Some (if alter then alter_edges (jpar js) E else E, {| bP := jpar js; bM := reset_msgs vs (jpar js) (fst mc); bF := clear_ends E F2 |}, snd mc)
    else None.
  Lemma one_round_ok E s E' s' ch : one_round E s = Some (E', s', ch) -> lb_round largest c o full alter E s E' s' ch.
  Proof.
    unfold one_round. intros H. destruct (_ && _) eqn:Ef in H; [|discriminate]. apply andb_true_iff in Ef as [Eu Ej]. inversion H; subst; clear H.
    eapply lb_round_intro; [apply Permutation_refl|apply surjective_pairing|now apply ufin_ok|now apply jfin_ok].
  Qed.
  Fixpoint run (fuel : nat) (E : list (nat * nat)) (s : lbst) : option lbst :=
    match fuel with
    | 0 => None
    | S f => match one_round E s with Some (E', s', true) => run f E' s' | Some (_, s', false) => Some s' | None => None end
    end.
  Lemma run_ok E0 s0 fuel : forall E s s', forall k, run fuel E s = Some s' -> lb_loop largest c o full alter E0 s0 k E s true ->
    exists k' E', lb_loop largest c o full alter E0 s0 k' E' s' false.
  Proof.
    induction fuel as [|f IH]; intros E s s' k H HL; [discriminate|]. cbn [run] in H. destruct (one_round E s) as [[[E1 s1] []]|] eqn:Er; [| |discriminate]; apply one_round_ok in Er.
    - apply (IH _ _ _ (S k) H). eapply lb_next; eauto.
    - inversion H; subst. exists (S k), E1. eapply lb_next; eauto.
  Qed.
  (* a batch of insertions only *)
  Definition ins (E : list (nat * nat)) : list lupd := map (fun e => (e, true)) E.
  Lemma filter_ins E : filter snd (ins E) = ins E.
  Proof. unfold ins. induction E; cbn; congruence. Qed.
  Lemma fst_ins E : map fst (ins E) = E.
  Proof. unfold ins. rewrite map_map. apply map_id. Qed.
  Lemma batch_ok E s s' : run 8 E s = Some s' -> lb_batch largest c o full alter (ins E) s s'.
  Proof.
    intros H. destruct (@run_ok E s 8 E s s' 0 H) as (k' & E' & HL); [constructor|].
    assert (X : lb_batch largest c o full alter (ins E) s {| bP := jpar (jexec largest [] (jstart A1 (bP s') (flat_map (fun x => [fst (fst x); snd (fst x)]) (firstn (length (ins E) - length (filter snd (ins E))) (ins E))))); bM := bM s'; bF := bF s' |}).
    { eapply lb_batch_intro; [reflexivity| |].
      - rewrite firstn_app, Nat.sub_diag, firstn_all, firstn_O, app_nil_r, filter_ins, fst_ins. exact HL.
      - rewrite filter_ins, Nat.sub_diag. intros u pc []. }
    destruct s'. exact X.
  Qed.
  Definition runs (bs : list (list (nat * nat))) : option lbst :=
    fold_left (fun os E => match os with Some s => run 8 E s | None => None end) bs (Some lb_init).
  Lemma runs_ok bs s : runs bs = Some s -> lb_batches largest c o full alter (map ins bs) s.
  Proof.
    revert s. induction bs as [|E bs IH] using rev_ind; intros s H.
    - inversion H. constructor.
    - unfold runs in H. rewrite fold_left_app in H. change (match runs bs with Some s => run 8 E s | None => None end = Some s) in H. destruct (runs bs) as [s1|] eqn:E1; [|discriminate].
      rewrite map_app. cbn [map]. eapply lbs_snoc; [now apply IH|]. now apply batch_ok.
  Qed.
  (* u and v end in different roots *)
  Definition split_by (bs : list (list (nat * nat))) (u v : nat) : bool :=
    match runs bs with
    | Some s => let ru := Nat.iter 6 (bP s) u in let rv := Nat.iter 6 (bP s) v in negb (ru =? rv) && (bP s ru =? ru) && (bP s rv =? rv)
    | None => false
    end.
End Run.
