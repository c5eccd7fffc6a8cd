(* Proofs about local queries. *)
From Coq Require Import Permutation Sorted.
From Verif Require Import Base YQModel.
Unset Strict Implicit.

(* -- queries over any elements ------------------------------------------------------------------ *)
Section Gen.
  Variable X : Type.
  Variable adjl : X -> list X.
  Variable lt : X -> X -> bool.
  Variable cutoff : nat.

  Fixpoint gloop (rec : X -> nat -> outcome) (x : X) (l : list X) (work : nat) : outcome :=
    match l with
    | [] => Ret In_ work
    | y :: l => if work =? cutoff then Ret Unknown cutoff
                else if lt y x then
                  match rec y (work + 1) with
                  | Ret In_ w => Ret Out_ w
                  | Ret Unknown w => Ret Unknown w
                  | Ret Out_ w => gloop rec x l w
                  | o => o
                  end
                else Ret In_ (work + 1)
    end.
  Fixpoint gq (depth : nat) (x : X) (work : nat) : outcome :=
    match depth with 0 => Deep | S depth => gloop (gq depth) x (adjl x) work end.
  Fixpoint uloop (rec : X -> option (bool * nat)) (x : X) (l : list X) (acc : nat) : option (bool * nat) :=
    match l with
    | [] => Some (true, acc)
    | y :: l => if lt y x then
                  match rec y with
                  | Some (true, w) => Some (false, acc + 1 + w)
                  | Some (false, w) => uloop rec x l (acc + 1 + w)
                  | None => None
                  end
                else Some (true, acc + 1)
    end.
  Fixpoint uq (depth : nat) (x : X) : option (bool * nat) :=
    match depth with 0 => None | S depth => uloop (uq depth) x (adjl x) 0 end.

  Lemma uloop_ge rec x l : forall acc b f, uloop rec x l acc = Some (b, f) -> acc <= f.
  Proof.
    induction l as [|y l IH]; simpl; intros acc b f.
    - intros E. injection E as <- <-. lia.
    - destruct (lt y x).
      + destruct (rec y) as [[[|] w]|]; [| |discriminate].
        * intros E. injection E as <- <-. lia.
        * intros E. apply IH in E. lia.
      + intros E. injection E as <- <-. lia.
  Qed.
  Definition cut (w : nat) (r : bool * nat) : outcome :=
    if w + snd r <=? cutoff then Ret (if fst r then In_ else Out_) (w + snd r) else Ret Unknown cutoff.
  Lemma gq_uq depth : forall x w r, uq depth x = Some r -> w <= cutoff -> gq depth x w = cut w r.
  Proof.
    induction depth as [|depth IH]; intros x w [b f] E Hw; [discriminate|]. cbn [gq uq] in *.
    assert (L : forall l w0 acc, w0 + acc <= cutoff -> uloop (uq depth) x l acc = Some (b, f) -> gloop (gq depth) x l (w0 + acc) = cut w0 (b, f)).
    { clear E Hw w. induction l as [|y l IHl]; intros w0 acc Hc.
      - simpl. intros E. injection E as <- <-. unfold cut; simpl. destruct (Nat.leb_spec (w0 + acc) cutoff); [auto|lia].
      - intros E. pose proof (uloop_ge E) as Hge. simpl in E |- *. destruct (Nat.eqb_spec (w0 + acc) cutoff) as [Ec|Ec].
        + unfold cut; simpl. destruct (Nat.leb_spec (w0 + f) cutoff); [|auto].
          exfalso. assert (acc < f); [|lia]. clear - E. destruct (lt y x).
          * destruct (uq depth y) as [[[|] w]|]; [injection E as <- <-; lia|apply uloop_ge in E; lia|discriminate].
          * injection E as <- <-. lia.
        + destruct (lt y x).
          * destruct (uq depth y) as [[b' w]|] eqn:Ey; [|discriminate].
            rewrite (IH _ (w0 + acc + 1) _ Ey) by lia. unfold cut at 1; simpl.
            destruct (Nat.leb_spec (w0 + acc + 1 + w) cutoff) as [Hl|Hl]; destruct b'.
            -- injection E as <- <-. unfold cut; simpl. destruct (Nat.leb_spec (w0 + (acc + 1 + w)) cutoff); [f_equal; lia|lia].
            -- replace (w0 + acc + 1 + w) with (w0 + (acc + 1 + w)) by lia. apply IHl; auto. lia.
            -- injection E as <- <-. unfold cut; simpl. destruct (Nat.leb_spec (w0 + (acc + 1 + w)) cutoff); [lia|auto].
            -- apply uloop_ge in E. unfold cut; simpl. destruct (Nat.leb_spec (w0 + f) cutoff); [lia|auto].
          * injection E as <- <-. unfold cut; simpl. destruct (Nat.leb_spec (w0 + (acc + 1)) cutoff); [f_equal; lia|lia]. }
    rewrite <- (Nat.add_0_r w) at 1. apply L; [lia|auto].
  Qed.

  Lemma uq_more depth : forall x r depth', uq depth x = Some r -> depth <= depth' -> uq depth' x = Some r.
  Proof.
    induction depth as [|depth IH]; intros x r depth' E Hd; [discriminate|]. destruct depth' as [|d']; [lia|].
    cbn [uq] in *. revert E. generalize 0. induction (adjl x) as [|y l IHl]; simpl; intros acc; auto.
    destruct (lt y x); auto. destruct (uq depth y) as [[b w]|] eqn:Ey; [|discriminate].
    rewrite (IH _ _ d' Ey) by lia. destruct b; auto.
  Qed.

  Variable dom : X -> Prop.
  Variable rank : X -> nat.
  Hypothesis closed : forall x y, dom x -> In y (adjl x) -> dom y.
  Hypothesis ranked : forall x y, dom x -> dom y -> lt y x = true -> rank y < rank x.
  Lemma uq_some depth : forall x, dom x -> rank x < depth -> exists r, uq depth x = Some r.
  Proof.
    induction depth as [|depth IH]; intros x Hx Hr; [lia|]. cbn [uq].
    assert (Hc : forall y, In y (adjl x) -> dom y) by (intros; eapply closed; eauto). generalize 0. revert Hc.
    induction (adjl x) as [|y l IHl]; intros Hc acc; simpl; eauto. destruct (lt y x) eqn:El; eauto.
    destruct (IH y) as [[b w] Ey]; [apply Hc; now left| |]. { pose proof (ranked Hx (Hc y (or_introl eq_refl)) El). lia. }
    rewrite Ey. destruct b; eauto. apply IHl. intros; apply Hc; now right.
  Qed.

  Hypothesis cotrans : forall x y z, lt y x = false -> lt z y = false -> lt z x = false.
  Hypothesis sorted : forall x, dom x -> StronglySorted (fun a b => lt b a = false) (adjl x).
  Variable N : nat.
  Hypothesis bound : forall x, dom x -> rank x < N.
  Definition ans (x : X) : bool := match uq N x with Some (b, _) => b | None => false end.
  Definition full (x : X) : nat := match uq N x with Some (_, f) => f | None => 0 end.
  Lemma uq_ans depth x : dom x -> N <= depth -> uq depth x = Some (ans x, full x).
  Proof.
    intros Hx Hd. destruct (uq_some Hx (bound Hx)) as [[b f] E]. unfold ans, full. rewrite E.
    now apply uq_more with (depth := N).
  Qed.
  Lemma gq_ans depth x : dom x -> N <= depth -> gq depth x 0 = cut 0 (ans x, full x).
  Proof. intros Hx Hd. apply gq_uq; [now apply uq_ans|lia]. Qed.
  Lemma ans_greedy x : dom x -> (ans x = true <-> forall y, In y (adjl x) -> lt y x = true -> ans y = false).
  Proof.
    intros Hx. assert (E : uq (S N) x = Some (ans x, full x)) by (apply uq_ans; auto). cbn [uq] in E.
    assert (Hc : forall y, In y (adjl x) -> dom y) by (intros; eapply closed; eauto). pose proof (sorted Hx) as Hs.
    revert E. generalize (ans x) (full x) 0. induction (adjl x) as [|y l IH]; intros b f acc.
    - simpl. intros E. injection E as <- <-. split; [easy|auto].
    - simpl. apply StronglySorted_inv in Hs. destruct Hs as [Hs Hf]. destruct (lt y x) eqn:El.
      + assert (Hy : dom y) by (apply Hc; now left). rewrite (uq_ans Hy (le_n N)). destruct (ans y) eqn:Ey.
        * intros E. injection E as <- <-. split; [discriminate|]. intros H. rewrite (H y (or_introl eq_refl) El) in Ey. discriminate.
        * intros E. apply IH in E; [|intros; apply Hc; now right|auto]. rewrite E. split.
          -- intros H z [<-|Hz] Hl; auto.
          -- intros H z Hz Hl. apply H; auto.
      + intros E. injection E as <- <-. split; auto. intros _ z [<-|Hz] Hl; [congruence|].
        rewrite Forall_forall in Hf. rewrite (cotrans El (Hf z Hz)) in Hl. discriminate.
  Qed.
End Gen.

(* -- slices of the reordered graph ----------------------------------------------------------------- *)
Lemma slice_eq comp n outn edges : reordered comp n outn edges ->
  exists f, (forall v, v < n -> Permutation (f v) (outn v) /\ sorted_by (comp v) (f v)) /\ forall v, v < n -> slice outn edges v = f v.
Proof.
  intros (f & Hf & ->). exists f. split; auto. intros v Hv. unfold slice.
  assert (Hlen : forall v, v < n -> length (f v) = length (outn v)) by (intros w Hw; apply Permutation_length, Hf; auto).
  assert (Ho : offset outn (v + 1) = offset outn v + length (outn v)).
  { unfold offset. rewrite Nat.add_1_r, seq_S, map_app, list_sum_app. simpl. lia. }
  assert (Hp : forall k, k <= n -> length (flat_map f (seq 0 k)) = offset outn k).
  { induction k; intros Hk; [reflexivity|]. unfold offset in *. rewrite seq_S, flat_map_app, map_app, list_sum_app, app_length, IHk by lia.
    simpl. rewrite app_nil_r, Hlen by lia. lia. }
  assert (Es : seq 0 n = seq 0 v ++ v :: seq (S v) (n - S v)).
  { replace n with (v + S (n - S v)) at 1 by lia. now rewrite seq_app. }
  rewrite Es, flat_map_app, <- (Hp v) by lia. rewrite skipn_app, skipn_all, Nat.sub_diag. simpl.
  replace (offset outn (v + 1) - _) with (length (f v)) by (rewrite Hp, Ho, Hlen by lia; lia).
  rewrite firstn_app, Nat.sub_diag, firstn_all. simpl. apply app_nil_r.
Qed.

(* -- the order of the vertices ---------------------------------------------------------------------- *)
Section Order.
  Variable A : Type.
  Variable p : A -> nat.
  Variable below : A -> A -> bool.
  Definition lex (x y : A) : bool := if p x <? p y then true else if p y <? p x then false else below x y.
  Lemma lex_true x y : lex x y = true <-> p x < p y \/ p x = p y /\ below x y = true.
  Proof.
    unfold lex. destruct (Nat.ltb_spec (p x) (p y)); [split; auto; lia|].
    destruct (Nat.ltb_spec (p y) (p x)); [split; [easy|intros [H'|[H' _]]; lia]|]. split; [intros E; right; split; auto; lia|].
    intros [H'|[_ E]]; [lia|auto].
  Qed.
  Hypothesis below_cotrans : forall x y z, below y x = false -> below z y = false -> below z x = false.
  Lemma lex_cotrans x y z : lex y x = false -> lex z y = false -> lex z x = false.
  Proof.
    unfold lex. repeat match goal with |- context[?a <? ?b] => destruct (Nat.ltb_spec a b) end; try lia; try discriminate; eauto.
  Qed.
  Hypothesis below_trans : forall x y z, below x y = true -> below y z = true -> below x z = true.
  Lemma lex_trans x y z : lex x y = true -> lex y z = true -> lex x z = true.
  Proof. rewrite !lex_true. intros [H1|[H1 B1]] [H2|[H2 B2]]; [left; lia|left; lia|left; lia|right; split; [lia|eauto]]. Qed.
  Hypothesis below_irrefl : forall x, below x x = false.
  Lemma lex_irrefl x : lex x x = false.
  Proof. unfold lex. rewrite Nat.ltb_irrefl. auto. Qed.
End Order.
Lemma filter_lt {A} (f g : A -> bool) l x : (forall y, In y l -> f y = true -> g y = true) -> In x l -> f x = false -> g x = true ->
  length (filter f l) < length (filter g l).
Proof.
  intros Hfg. assert (Hle : forall l, (forall y, In y l -> f y = true -> g y = true) -> length (filter f l) <= length (filter g l)).
  { clear. induction l as [|y l IH]; intros H; simpl; auto. pose proof (H y (or_introl eq_refl)).
    assert (length (filter f l) <= length (filter g l)) by (apply IH; intros; apply H; simpl; auto).
    destruct (f y); [rewrite H0 by auto; simpl; lia|destruct (g y); simpl; lia]. }
  induction l as [|y l IH]; intros Hin Ef Eg; [easy|]. simpl. destruct Hin as [->|Hin].
  - rewrite Ef, Eg. simpl. apply Nat.lt_succ_r, Hle. intros; apply Hfg; simpl; auto.
  - assert (length (filter f l) < length (filter g l)) by (apply IH; auto; intros; apply Hfg; simpl; auto).
    pose proof (Hfg y (or_introl eq_refl)). destruct (f y); [rewrite H0 by auto; simpl; lia|destruct (g y); simpl; lia].
Qed.

(* -- mis_query ------------------------------------------------------------------------------------------ *)
Lemma mis_step pri nghs c d u w : mis_query pri nghs c (S d) u w =
  (fix loop (l : list nat) (work last_pri : nat) : outcome :=
     match l with
     | [] => Ret In_ work
     | ngh :: l =>
         if work =? c then Ret Unknown work
         else if pri ngh <? last_pri then Exit
         else if pri u <? pri ngh then Ret In_ (work + 1)
         else if (pri u =? pri ngh) && (u <=? ngh) then Ret In_ (work + 1)
         else match mis_query pri nghs c d ngh (work + 1) with
              | Ret In_ w => Ret Out_ w
              | Ret Unknown w => Ret Unknown w
              | Ret Out_ w => loop l w (pri ngh)
              | o => o
              end
     end) (nghs u) w 0.
Proof. reflexivity. Qed.
Lemma mis_gq pri nghs c d : forall (n : nat) u w, (forall x y, x < n -> In y (nghs x) -> y < n) ->
  (forall x, x < n -> sorted_by (vertex_comp pri x) (nghs x)) -> u < n ->
  mis_query pri nghs c d u w = gq nghs (vertex_comp pri 0) c d u w.
Proof.
  induction d as [|d IH]; intros n u w Hc Hs Hu; [reflexivity|]. rewrite mis_step. cbn [gq].
  assert (Hcu : forall y, In y (nghs u) -> y < n) by (intros; eapply Hc; eauto).
  pose proof (Hs u Hu) as Hsu. assert (Hlast : forall y, In y (nghs u) -> 0 <= pri y) by (intros; lia).
  match goal with |- ?F _ w 0 = _ => set (loop := F) end.
  enough (L : forall last w, (forall y, In y (nghs u) -> last <= pri y) ->
    loop (nghs u) w last = gloop (vertex_comp pri 0) c (gq nghs (vertex_comp pri 0) c d) u (nghs u) w) by auto.
  clear w Hlast. induction (nghs u) as [|y l IHl]; intros last w Hlast; [reflexivity|].
  cbn [gloop]. unfold loop at 1. fold loop. apply StronglySorted_inv in Hsu. destruct Hsu as [Hsu Hf]. rewrite Forall_forall in Hf.
  destruct (Nat.eqb_spec w c) as [->|]; [reflexivity|].
  pose proof (Hlast y (or_introl eq_refl)). destruct (Nat.ltb_spec (pri y) last); [lia|].
  replace (vertex_comp pri 0 y u) with (negb ((pri u <? pri y) || (pri u =? pri y) && (u <=? y))).
  2:{ unfold vertex_comp. destruct (Nat.ltb_spec (pri u) (pri y)), (Nat.ltb_spec (pri y) (pri u)), (Nat.eqb_spec (pri u) (pri y)); simpl; try lia; try reflexivity.
      destruct (Nat.leb_spec u y), (Nat.ltb_spec y u); simpl; try lia; reflexivity. }
  destruct (pri u <? pri y); simpl; [reflexivity|]. destruct ((pri u =? pri y) && (u <=? y)); simpl; [reflexivity|].
  rewrite (IH n) by (auto; apply Hcu; now left).
  destruct (gq nghs (vertex_comp pri 0) c d y (w + 1)) as [[| |] w'| |]; try reflexivity.
  apply IHl; auto.
  - intros z Hz. apply Hcu. now right.
  - intros z Hz. specialize (Hf z Hz). unfold vertex_comp in Hf. destruct (Nat.ltb_spec (pri z) (pri y)); [discriminate|lia].
Qed.
