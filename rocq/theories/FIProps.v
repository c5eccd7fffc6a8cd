(* Theorems for C96. *)
From Verif Require Import Base FIModel FISpec FIProofs.
Unset Strict Implicit.

(* the edges es of a vertex, at the start of an array that goes on with anything: the iterator hands out every edge, in
   order, has_next tells exactly whether there is another, and one call too many hands out what follows in the array *)
Theorem C96_iter : forall E (e : E) es rest k, k <= length es ->
  exists it, get_iter ((e :: es) ++ rest) (length (e :: es)) = Some it /\ cur it = Some e /\
  exists it', draws (next ((e :: es) ++ rest)) k it = Some (firstn k es, it') /\
    cur it' = nth_error (e :: es) k /\ has_next it' = (k <? length es) /\
    (k = length es -> match rest with [] => next ((e :: es) ++ rest) it' = None | r :: _ => exists it2, next ((e :: es) ++ rest) it' = Some (r, it2) end).
Proof.
  intros E e es rest k Hk. exists (at_ (length (e :: es)) 1 e). split; [reflexivity|]. split; [reflexivity|].
  assert (S1 : skipn 1 ((e :: es) ++ rest) = firstn k es ++ (skipn k es ++ rest)) by (cbn; now rewrite app_assoc, firstn_skipn).
  pose proof (iter_draws (length (e :: es)) e S1) as D.
  rewrite firstn_length_le in D by auto. eexists. split; [exact D|]. split; [|split].
  - cbn [cur last_edge at_]. clear - Hk. revert e es Hk. induction k as [|k IH]; intros e es Hk; [reflexivity|].
    destruct es as [|y ys]; [cbn in Hk; lia|]. cbn [length] in Hk. specialize (IH y ys ltac:(lia)). cbn [nth_error] in *. rewrite <- IH.
    cbn [firstn]. f_equal. generalize (firstn k ys) as q. clear. intros q. revert y. induction q as [|z q IH]; intros y; [reflexivity|].
    destruct q as [|z' q]; [reflexivity|]. cbn [last] in *. apply IH.
  - unfold has_next; cbn [proc degree at_ length]. destruct (Nat.ltb_spec k (length es)); [apply Nat.ltb_lt|apply Nat.ltb_ge]; lia.
  - intros ->. unfold next; cbn [edges at_]. replace (length es + 1) with (length (e :: es)) by (cbn; lia).
    rewrite nth_error_app2 by lia. rewrite Nat.sub_diag. destruct rest as [|r rest]; [reflexivity|]. cbn. eexists; reflexivity.
Qed.

(* the filtering iterator: the current value and k calls of next give the edges that satisfy the predicate, in order, and
   after the last of them (or if there is none at once) the last edge of the vertex again and again; nothing behind the
   edges of the vertex is read *)
Theorem C96_filter_iter : forall E (pred : E -> bool) (e : E) es rest k,
  exists it f vs f', get_iter ((e :: es) ++ rest) (length (e :: es)) = Some it /\
    make_filter_iter ((e :: es) ++ rest) pred it = Some f /\
    draws (fnext ((e :: es) ++ rest) pred) k f = Some (vs, f') /\
    fcur f :: vs = firstn (S k) (filter pred (e :: es)) ++ repeat (last (e :: es) e) (S k - length (filter pred (e :: es))).
Proof.
  intros E pred e es rest k. set (arr := (e :: es) ++ rest). exists (at_ (length (e :: es)) 1 e).
  assert (S1 : skipn 1 arr = es ++ rest) by reflexivity.
  assert (EL : last (e :: es) e = last es e).
  { destruct es as [|y ys]; reflexivity. }
  pose proof (init_loop_ok pred e (d := length (e :: es)) (fuel := S (length (e :: es))) S1 ltac:(reflexivity) ltac:(cbn; lia)) as X.
  destruct (filter pred (e :: es)) as [|x l] eqn:Fe.
  - destruct (@fdraws_ok E arr pred k [] (length (e :: es)) (length (e :: es)) (last es e) rest) as (f' & Hf).
    + unfold arr. rewrite skipn_app, skipn_all, Nat.sub_diag. reflexivity.
    + cbn; lia.
    + do 3 eexists. split; [reflexivity|]. split; [exact X|]. split; [exact Hf|].
      cbn [fcur cur_val fat filter]. change (last [] (last es e)) with (last es e). rewrite !firstn_nil. cbn [length app]. rewrite !Nat.sub_0_r, EL. reflexivity.
  - destruct X as (p' & es' & X & H' & L' & Fl & El).
    destruct (@fdraws_ok E arr pred k es' (length (e :: es)) p' x rest H' L') as (f' & Hf).
    do 3 eexists. split; [reflexivity|]. split; [exact X|]. split; [exact Hf|].
    cbn [fcur cur_val fat]. rewrite EL, El, Fl. reflexivity.
Qed.

(* the use in filter_graph: one value and as many calls of next as there are further edges that satisfy the predicate *)
Theorem C96_filter_exact : forall E (pred : E -> bool) (e : E) es rest k, length (filter pred (e :: es)) = S k ->
  exists it f vs f', get_iter ((e :: es) ++ rest) (length (e :: es)) = Some it /\
    make_filter_iter ((e :: es) ++ rest) pred it = Some f /\
    draws (fnext ((e :: es) ++ rest) pred) k f = Some (vs, f') /\ fcur f :: vs = filter pred (e :: es).
Proof.
  intros E pred e es rest k Hk. destruct (C96_filter_iter pred e es rest k) as (it & f & vs & f' & H1 & H2 & H3 & H4).
  exists it, f, vs, f'. repeat split; auto. rewrite H4, Hk, Nat.sub_diag, <- Hk, firstn_all. apply app_nil_r.
Qed.

(* the filtering iterator cannot tell that it is at its end: its current value need not satisfy the predicate *)
Theorem C96_end_refuted : ~ (forall E (pred : E -> bool) arr d it f, get_iter arr d = Some it ->
  make_filter_iter arr pred it = Some f -> pred (fcur f) = true).
Proof. intros H. specialize (H nat Nat.even [1; 3] 2 _ _ eq_refl eq_refl). discriminate. Qed.

(* an isolated vertex has no current edge to read, and the filtering iterator reads it *)
Theorem C96_isolated : forall E (pred : E -> bool) arr it, get_iter arr 0 = Some it ->
  has_next it = false /\ cur it = None /\ make_filter_iter arr pred it = None.
Proof. intros E pred arr it [= <-]. repeat split; reflexivity. Qed.

(* a vertex with edges 1 2 3 4 5 in front of the edges 7 9 of the next one *)
Example C96_example :
  exists it f f', get_iter [1; 2; 3; 4; 5; 7; 9] 5 = Some it /\ make_filter_iter [1; 2; 3; 4; 5; 7; 9] Nat.even it = Some f /\
  fcur f = 2 /\ draws (fnext [1; 2; 3; 4; 5; 7; 9] Nat.even) 3 f = Some ([4; 5; 5], f').
Proof. do 3 eexists. repeat split; reflexivity. Qed.

Print Assumptions C96_iter.
Print Assumptions C96_filter_iter.
Print Assumptions C96_filter_exact.
Print Assumptions C96_end_refuted.
Print Assumptions C96_isolated.
