From Verif Require Import Base FIModel FISpec.
Unset Strict Implicit.

Section p.
  Context {E : Type}.
  Variable arr : list E.

  (* the iterator after it has handed out the edges before c, and c *)
  Definition at_ (d p : nat) (c : E) : iter := {| edges := p; degree := d; proc := p; last_edge := Some c |}.

  Lemma next_at : forall d p c e, nth_error arr p = Some e -> next arr (at_ d p c) = Some (e, at_ d (S p) e).
  Proof. intros d p c e H. unfold next, at_; cbn. now rewrite H. Qed.

  Lemma skipn_cons : forall p (e : E) l, skipn p arr = e :: l -> nth_error arr p = Some e /\ skipn (S p) arr = l.
  Proof.
    clear. induction arr as [|x xs IH]; intros p e l H.
    - destruct p; discriminate.
    - destruct p as [|p]; [cbn in *; injection H as -> ->; auto|]. cbn [skipn nth_error] in *. apply IH in H as (H1 & H2). split; auto.
  Qed.

  Lemma iter_draws : forall es d p c rest, skipn p arr = es ++ rest -> draws (next arr) (length es) (at_ d p c) = Some (es, at_ d (length es + p) (last es c)).
  Proof.
    induction es as [|e es IH]; intros d p c rest H; [reflexivity|]. cbn [app] in H. apply skipn_cons in H as (H1 & H2).
    cbn [draws length]. rewrite (next_at d c H1), (IH d (S p) e rest H2). f_equal. f_equal.
    replace (length es + S p) with (S (length es) + p) by lia. f_equal.
    destruct es as [|y ys]; [reflexivity|]. cbn [last]. clear. revert y. induction ys as [|z zs IH]; intros y; [reflexivity|]. cbn [last]. apply IH.
  Qed.

  Variable pred : E -> bool.

  Definition fat (d p : nat) (c : E) : filter_iter := {| under := at_ d p c; cur_val := c |}.

  Lemma next_loop_ok : forall es d p c rest fuel, skipn p arr = es ++ rest -> p + length es = d -> length es < fuel ->
    match filter pred es with
    | [] => next_loop arr pred fuel (at_ d p c) c = Some (fat d d (last es c))
    | x :: l => exists p' es', next_loop arr pred fuel (at_ d p c) c = Some (fat d p' x) /\ skipn p' arr = es' ++ rest /\ p' + length es' = d /\ filter pred es' = l /\ last es c = last es' x
    end.
  Proof.
    induction es as [|e es IH]; intros d p c rest fuel H L F; destruct fuel as [|fuel]; try (cbn in F; lia).
    - cbn [length] in L. cbn [filter next_loop]. unfold has_next; cbn [proc degree at_]. replace (p <? d) with false by (symmetry; apply Nat.ltb_ge; lia). replace p with d by lia. reflexivity.
    - cbn [app] in H. apply skipn_cons in H as (H1 & H2). cbn [length] in *.
      assert (EL : last (e :: es) c = last es e).
      { destruct es as [|y ys]; [reflexivity|]. cbn [last]. clear. revert y. induction ys as [|z zs IH]; intros y; [reflexivity|]. cbn [last]. apply IH. }
      cbn [next_loop filter]. unfold has_next at 1 2; cbn [proc degree at_]. replace (p <? d) with true by (symmetry; apply Nat.ltb_lt; lia).
      rewrite (next_at d c H1). rewrite EL. destruct (pred e) eqn:P.
      + exists (S p), es. repeat split; auto; lia.
      + specialize (IH d (S p) e rest fuel H2 ltac:(lia) ltac:(lia)). exact IH.
  Qed.

  Lemma init_loop_ok : forall es d p c rest fuel, skipn p arr = es ++ rest -> p + length es = d -> length es < fuel ->
    match filter pred (c :: es) with
    | [] => init_loop arr pred fuel (at_ d p c) c = Some (fat d d (last es c))
    | x :: l => exists p' es', init_loop arr pred fuel (at_ d p c) c = Some (fat d p' x) /\ skipn p' arr = es' ++ rest /\ p' + length es' = d /\ filter pred es' = l /\ last es c = last es' x
    end.
  Proof.
    induction es as [|e es IH]; intros d p c rest fuel H L F; destruct fuel as [|fuel]; try (cbn in F; lia).
    - cbn [filter init_loop]. unfold has_next; cbn [proc degree at_]. cbn in L. destruct (pred c) eqn:P; cbn [negb andb].
      + exists p, []. repeat split; auto.
      + replace (p <? d) with false by (symmetry; apply Nat.ltb_ge; lia). replace p with d by lia. reflexivity.
    - pose proof H as H0. cbn [app] in H. apply skipn_cons in H as (H1 & H2). cbn [length] in *.
      assert (EL : last (e :: es) c = last es e).
      { destruct es as [|y ys]; [reflexivity|]. cbn [last]. clear. revert y. induction ys as [|z zs IH]; intros y; [reflexivity|]. cbn [last]. apply IH. }
      remember (e :: es) as ees. cbn [filter init_loop]. unfold has_next at 1 2; cbn [proc degree at_]. destruct (pred c) eqn:P; cbn [negb andb].
      + exists p, ees. subst. repeat split; auto; cbn; lia.
      + replace (p <? d) with true by (symmetry; apply Nat.ltb_lt; lia). rewrite (next_at d c H1). rewrite EL. subst ees.
        exact (IH d (S p) e rest fuel H2 ltac:(lia) ltac:(lia)).
  Qed.

  (* k calls of next when es is still to come *)
  Lemma fdraws_ok : forall k es d p c rest, skipn p arr = es ++ rest -> p + length es = d ->
    exists f, draws (fnext arr pred) k (fat d p c) = Some (firstn k (filter pred es) ++ repeat (last es c) (k - length (filter pred es)), f).
  Proof.
    induction k as [|k IH]; intros es d p c rest H L; [eexists; reflexivity|].
    cbn [draws]. unfold fnext at 1. cbn [under cur_val fat degree at_].
    pose proof (next_loop_ok c (fuel := S d) H L ltac:(lia)) as X.
    fold (at_ d p c). destruct (filter pred es) as [|x l] eqn:Fe.
    - rewrite X. cbn [cur_val fat]. destruct (IH [] d d (last es c) rest) as (f & Hf).
      + subst d. clear - H. revert p H. induction es as [|e es IHe]; intros p H; [now rewrite Nat.add_0_r|].
        cbn [app] in H. apply skipn_cons in H as (_ & H). cbn [length]. rewrite <- plus_n_Sm. apply (IHe (S p) H).
      + cbn; lia.
      + rewrite Hf. eexists. cbn [filter last]. rewrite !firstn_nil. cbn [length app]. rewrite !Nat.sub_0_r. reflexivity.
    - destruct X as (p' & es' & X & H' & L' & Fl & El). rewrite X. cbn [cur_val fat].
      destruct (IH es' d p' x rest H' L') as (f & Hf). rewrite Hf. eexists. rewrite El, Fl. reflexivity.
  Qed.
End p.
