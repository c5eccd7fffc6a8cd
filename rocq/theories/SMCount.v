From Verif Require Import Base ListUtil GBModel SFModel ISModel ISSpec ISProofs SIModel SMModel SMProofs.
From Coq Require Import ZArith Permutation Sorted.
Local Open Scope nat_scope.
Unset Strict Implicit.

Definition sumn (n : nat) (f : nat -> Z) : Z := zsum (map f (seq 0 n)).
Lemma zsum_ext {A} (f g : A -> Z) l : (forall x, In x l -> f x = g x) -> zsum (map f l) = zsum (map g l).
Proof. intros H. f_equal. apply map_ext_in. auto. Qed.
Lemma zsum_zero {A} (f : A -> Z) l : (forall x, In x l -> f x = 0%Z) -> zsum (map f l) = 0%Z.
Proof. induction l as [|x l IH]; intros H; cbn; auto. fold (zsum (map f l)). rewrite IH, (H x); auto; [now left|]. intros y Hy. apply H. now right. Qed.
Lemma zsum_plus {A} (f g : A -> Z) l : zsum (map (fun x => f x + g x)%Z l) = (zsum (map f l) + zsum (map g l))%Z.
Proof. induction l as [|x l IH]; cbn -[Z.add]; auto. fold (zsum (map (fun x => f x + g x)%Z l)) (zsum (map f l)) (zsum (map g l)). rewrite IH. lia. Qed.
Lemma zsum_perm l l' : Permutation l l' -> zsum l = zsum l'.
Proof. unfold zsum. induction 1; cbn -[Z.add]; lia. Qed.
Lemma zsum_concat {A} (f : A -> Z) ls : zsum (map f (concat ls)) = zsum (map (fun l => zsum (map f l)) ls).
Proof. induction ls as [|l ls IH]; cbn [concat map]; auto. rewrite map_app, zsum_app, IH. reflexivity. Qed.
Lemma zsum_flat {A B} (f : B -> Z) (g : A -> list B) l : zsum (map f (flat_map g l)) = zsum (map (fun x => zsum (map f (g x))) l).
Proof. rewrite flat_map_concat_map, zsum_concat, map_map. reflexivity. Qed.
Lemma sumn_ext n f g : (forall x, x < n -> f x = g x) -> sumn n f = sumn n g.
Proof. intros H. apply zsum_ext. intros x Hx. apply H. apply in_seq in Hx. lia. Qed.
Lemma sumn_plus n f g : sumn n (fun x => f x + g x)%Z = (sumn n f + sumn n g)%Z.
Proof. apply zsum_plus. Qed.
Lemma sumn_zero n : sumn n (fun _ => 0%Z) = 0%Z.
Proof. apply zsum_zero. auto. Qed.
Lemma sumn_single n p f : p < n -> sumn n (fun x => if x =? p then f x else 0%Z) = f p.
Proof.
  intros Hp. unfold sumn. replace n with (p + S (n - S p)) by lia. rewrite seq_app, map_app, zsum_app. cbn [seq map Nat.add]. cbn -[Z.add]. fold (zsum (map (fun x => if x =? p then f x else 0%Z) (seq (S p) (n - S p)))).
  rewrite Nat.eqb_refl, !zsum_zero; [lia| |]; intros x Hx; apply in_seq in Hx; destruct (Nat.eqb_spec x p); auto; lia.
Qed.
Lemma sumn_if n (b : bool) f : sumn n (fun x => if b then f x else 0%Z) = if b then sumn n f else 0%Z.
Proof. destruct b; auto. apply sumn_zero. Qed.

(* sums over a list with distinct keys *)
Lemma find_some_iff {T} (key : T -> nat) L x t : NoDup (map key L) -> find (fun t => key t =? x) L = Some t <-> In t L /\ key t = x.
Proof.
  induction L as [|y L IH]; cbn [map find In]; intros Hn. { split; [discriminate|tauto]. }
  inversion Hn as [|? ? N1 N2]; subst. destruct (Nat.eqb_spec (key y) x) as [<-|Hy].
  - split; [intros E; injection E as <-; auto|]. intros [[->|Hi] E]; auto. exfalso. apply N1. rewrite <- E. now apply in_map.
  - rewrite (IH N2). split; [tauto|]. intros [[->|Hi] E]; auto. congruence.
Qed.
Lemma find_none_iff {T} (key : T -> nat) L x : find (fun t => key t =? x) L = None <-> ~ In x (map key L).
Proof.
  induction L as [|y L IH]; cbn [map find In]; [tauto|]. destruct (Nat.eqb_spec (key y) x) as [<-|Hy]; [split; [discriminate|tauto]|]. rewrite IH. tauto.
Qed.
Definition opt {T} (f : T -> Z) (o : option T) : Z := match o with Some t => f t | None => 0%Z end.
Lemma key_sum {T} (key : T -> nat) (f : T -> Z) n L : NoDup (map key L) -> (forall t, In t L -> key t < n) ->
  zsum (map f L) = sumn n (fun x => opt f (find (fun t => key t =? x) L)).
Proof.
  induction L as [|y L IH]; intros Hn Hr; cbn [map find]; [symmetry; apply sumn_zero|]. inversion Hn as [|? ? N1 N2]; subst.
  transitivity (sumn n (fun x => if (x =? key y)%nat then f y else 0%Z) + sumn n (fun x => opt f (find (fun t => (key t =? x)%nat) L)))%Z.
  - rewrite sumn_single by (apply Hr; now left). rewrite <- IH; auto. intros t Ht. apply Hr. now right.
  - rewrite <- sumn_plus. apply sumn_ext. intros x Hx. rewrite (Nat.eqb_sym x). destruct (Nat.eqb_spec (key y) x) as [<-|Hy]; [|lia].
    cbn [opt]. rewrite (proj2 (@find_none_iff _ key L (key y)) N1). cbn. lia.
Qed.

Lemma In_indexed {A} (l : list A) i x : In (i, x) (indexed l) <-> nth_error l i = Some x.
Proof.
  unfold indexed. assert (H : forall k, In (i, x) (combine (seq k (length l)) l) <-> k <= i /\ nth_error l (i - k) = Some x).
  { induction l as [|y l IH]; intros k; cbn [length seq combine In]; [split; [tauto|]; intros [_ E]; destruct (i - k); discriminate|]. rewrite IH. split.
    - intros [E|[H1 H2]]; [injection E as -> ->; rewrite Nat.sub_diag; auto|]. split; [lia|]. replace (i - k) with (S (i - S k)) by lia. auto.
    - intros [H1 H2]. destruct (Nat.eq_dec i k) as [->|Hn]; [rewrite Nat.sub_diag in H2; cbn in H2; left; congruence|]. right. split; [lia|].
      replace (i - k) with (S (i - S k)) in H2 by lia. auto. }
  rewrite H, Nat.sub_0_r. split; [tauto|]. split; [lia|auto].
Qed.
Lemma map_snd_indexed {A} (l : list A) : map snd (indexed l) = l.
Proof. unfold indexed. generalize 0. induction l as [|x l IH]; intros k; cbn; [auto|]. now rewrite IH. Qed.

Section Counts.
  Variables (W : Type) (prod : W -> W -> Z).
  Hypothesis prod_comm : forall a b, prod a b = prod b a.
  Variables (base thresh n : nat).
  Hypothesis Hbase : 2 <= base.
  Variable dg : nat -> list (nat * W).
  Hypothesis Hinc : forall v, v < n -> increasing (map fst (dg v)).
  Hypothesis Hrange : forall u v, u < n -> In v (map fst (dg u)) -> v < n.
  Notation off := (sum_before (fun v => length (dg v))).

  (* the position and the weight of v in the list of u *)
  Definition look (l : list (nat * W)) (v : nat) : option (nat * (nat * W)) := find (fun t => fst (snd t) =? v) (indexed l).
  Lemma keys_indexed (l : list (nat * W)) : map (fun t => fst (snd t)) (indexed l) = map fst l.
  Proof. rewrite <- (map_map snd fst), map_snd_indexed. reflexivity. Qed.
  Lemma look_iff l v i x : increasing (map fst l) -> look l v = Some (i, x) <-> nth_error l i = Some x /\ fst x = v.
  Proof. intros Hl. unfold look. rewrite find_some_iff by (rewrite keys_indexed; now apply inc_NoDup). now rewrite In_indexed. Qed.
  Lemma calls_find A B l x : increasing (map fst A) -> increasing (map fst B) -> good_calls A B 0 0 l ->
    find (fun c => call_id c =? x) l = match look A x, look B x with Some (i, (_, a)), Some (j, (_, b)) => Some (x, i, j, a, b) | _, _ => None end.
  Proof.
    intros HA HB Hg. assert (Hn : NoDup (map (@call_id W) l)) by (apply inc_NoDup, Hg).
    destruct (find (fun c => call_id c =? x) l) as [c|] eqn:E.
    - apply (@find_some_iff _ (@call_id W) l x c Hn) in E as [E1 E2]. destruct c as [[[[y i] j] a] b]. cbn in E2. subst y. apply Hg in E1 as (i' & j' & -> & -> & E1 & E2).
      rewrite (proj2 (@look_iff A x i' (x, a) HA)), (proj2 (@look_iff B x j' (x, b) HB)); auto.
    - destruct (look A x) as [[i [y a]]|] eqn:EA; auto. destruct (look B x) as [[j [z b]]|] eqn:EB; auto.
      apply (@look_iff A x i (y, a) HA) in EA as [EA Ey]. apply (@look_iff B x j (z, b) HB) in EB as [EB Ez]. cbn in Ey, Ez. subst y z.
      exfalso. apply (@find_none_iff _ (@call_id W) l x) in E. apply E. change x with (call_id (x, i, j, a, b)). apply in_map. apply Hg. exists i, j. auto.
  Qed.

  (* offsets *)
  Lemma off_S v : off (S v) = off v + length (dg v).
  Proof. unfold sum_before. rewrite seq_S, map_app, list_sum_app. cbn. lia. Qed.
  Lemma off_mono u v : u <= v -> off u <= off v.
  Proof. induction 1; auto. rewrite off_S. lia. Qed.
  Lemma off_inj u v i j : i < length (dg u) -> j < length (dg v) -> off u + i = off v + j -> u = v /\ i = j.
  Proof.
    intros Hi Hj E. destruct (Nat.lt_trichotomy u v) as [H|[->|H]]; [|lia|].
    - pose proof (@off_mono (S u) v H). rewrite off_S in *. lia.
    - pose proof (@off_mono (S v) u H). rewrite off_S in *. lia.
  Qed.

  (* what is added for the pair (u, v), in u's list with position i and weight w *)
  Definition calls_of (u v : nat) : list (call W) :=
    match intersect_with_index prod base thresh (dg u) (dg v) with Some (_, l) => l | None => [] end.
  Lemma calls_of_ok u v : u < n -> v < n -> intersect_with_index prod base thresh (dg u) (dg v) = Some (csum prod (calls_of u v), calls_of u v) /\ good_calls (dg u) (dg v) 0 0 (calls_of u v).
  Proof. intros Hu Hv. destruct (@intersect_ok W prod prod_comm base thresh (dg u) (dg v) Hbase (Hinc Hu) (Hinc Hv)) as (l & E & Hg). unfold calls_of. rewrite E. auto. Qed.
  Definition adds_of (u : nat) (x : nat * (nat * W)) : list (nat * Z) :=
    let '(i, (v, w)) := x in
    flat_map (fun c : call W => let '(_, iu, iv, wu, wv) := c in [(off u + iu, prod w wv); (off v + iv, prod w wu)]) (calls_of u v) ++ [(off u + i, csum prod (calls_of u v))].
  Definition adds : list (nat * Z) := concat (flat_map (fun u => map (adds_of u) (indexed (dg u))) (seq 0 n)).
  Definition at_ (K : nat) (e : nat * Z) : Z := if fst e =? K then snd e else 0%Z.
  Definition value (K : nat) : Z := zsum (map (at_ K) adds).

  Section Edge.
    Variables (p q k : nat) (wq : W).
    Hypothesis Hp : p < n.
    Hypothesis Hk : nth_error (dg p) k = Some (q, wq).
    Notation K := (off p + k).
    Lemma Hq : q < n.
    Proof. apply (@Hrange p q Hp). apply nth_error_In in Hk. change q with (fst (q, wq)). now apply in_map. Qed.
    Lemma at_edge u i v w : u < n -> nth_error (dg u) i = Some (v, w) -> (off u + i =? K) = (u =? p) && (v =? q).
    Proof.
      intros Hu Hi. assert (L1 : i < length (dg u)) by (apply nth_error_Some; congruence). assert (L2 : k < length (dg p)) by (apply nth_error_Some; congruence).
      destruct (Nat.eqb_spec (off u + i) K) as [E|E].
      - apply off_inj in E as [-> ->]; auto. rewrite Hi in Hk. injection Hk as -> ->. now rewrite !Nat.eqb_refl.
      - destruct (Nat.eqb_spec u p) as [->|]; auto. destruct (Nat.eqb_spec v q) as [->|]; auto. exfalso. apply E. f_equal.
        assert (X : forall j y, nth_error (dg p) j = Some y -> nth_error (map fst (dg p)) j = Some (fst y)) by (intros j y Hj; now rewrite nth_error_map, Hj).
        pose proof (X _ _ Hi) as Y1. pose proof (X _ _ Hk) as Y2. cbn in Y1, Y2. pose proof (inc_NoDup (Hinc Hp)) as N. apply (proj1 (NoDup_nth_error (map fst (dg p))) N); [rewrite map_length; auto|congruence].
    Qed.
    (* the three ways in which an edge is part of a directed triangle u -> v, u -> x, v -> x *)
    Definition tri (u v x : nat) (f : W -> W -> W -> Z) : Z :=
      opt (fun a => opt (fun b => opt (fun c => f (snd (snd a)) (snd (snd b)) (snd (snd c))) (look (dg v) x)) (look (dg u) x)) (look (dg u) v).
    Definition term (u v x : nat) : Z :=
      ((if (u =? p)%nat then if (x =? q)%nat then tri u v x (fun uv ux vx => prod uv vx) else 0 else 0)
       + (if (v =? p)%nat then if (x =? q)%nat then tri u v x (fun uv ux vx => prod uv ux) else 0 else 0)
       + (if (u =? p)%nat then if (v =? q)%nat then tri u v x (fun uv ux vx => prod ux vx) else 0 else 0))%Z.
    Lemma edge_value u i v w : u < n -> nth_error (dg u) i = Some (v, w) -> zsum (map (at_ K) (adds_of u (i, (v, w)))) = sumn n (fun x => term u v x).
    Proof.
      intros Hu Hi. assert (Hvd : In v (map fst (dg u))) by (apply nth_error_In in Hi; change v with (fst (v, w)); now apply in_map). pose proof (Hrange Hu Hvd) as Hv.
      destruct (calls_of_ok Hu Hv) as [_ Hg]. unfold adds_of. set (l := calls_of u v) in *. rewrite map_app, zsum_app, zsum_flat. cbn [map]. unfold zsum at 3. cbn [fold_right]. unfold at_ at 2. cbn [fst snd].
      rewrite (at_edge Hu Hi). assert (Hlook : look (dg u) v = Some (i, (v, w))) by (apply look_iff; auto).
      assert (Hn : NoDup (map (@call_id W) l)) by (apply inc_NoDup, Hg).
      assert (Hlt : forall t, In t l -> call_id t < n) by (intros t Ht; apply (@Hrange u); auto; apply (good_id Hg (x := call_id t)); now apply in_map).
      unfold csum. rewrite !(@key_sum _ (@call_id W) _ n l Hn Hlt).
      transitivity (sumn n (fun x => (opt (fun t : call W => zsum (map (at_ K) (let '(_, iu, iv, wu, wv) := t in [((off u + iu)%nat, prod w wv); ((off v + iv)%nat, prod w wu)]))) (find (fun t => (call_id t =? x)%nat) l)
                                      + if ((u =? p)%nat) && ((v =? q)%nat) then opt (call_prod prod) (find (fun t => (call_id t =? x)%nat) l) else 0)%Z)).
      { rewrite sumn_plus, sumn_if. lia. }
      apply sumn_ext. intros x Hx. rewrite (@calls_find _ _ _ x (Hinc Hu) (Hinc Hv) Hg). unfold term, tri. rewrite Hlook. cbn [opt snd].
      destruct (look (dg u) x) as [[iu [y a]]|] eqn:EA; cbn [opt snd]; [|destruct (u =? p), (v =? q), (v =? p), (x =? q); reflexivity].
      destruct (look (dg v) x) as [[iv [z b]]|] eqn:EB; cbn [opt snd]; [|destruct (u =? p), (v =? q), (v =? p), (x =? q); reflexivity].
      apply (@look_iff _ _ _ _ (Hinc Hu)) in EA as [EA Ey]. apply (@look_iff _ _ _ _ (Hinc Hv)) in EB as [EB Ez]. cbn in Ey, Ez. subst y z.
      cbn [map]. unfold zsum. cbn [fold_right call_prod]. unfold at_. cbn [fst snd]. rewrite (at_edge Hu EA), (at_edge Hv EB).
      destruct (u =? p), (v =? q), (v =? p), (x =? q); cbn [andb]; lia.
    Qed.
    Theorem edge_total : value K = sumn n (fun z => tri p z q (fun uv ux vx => prod uv vx) + tri z p q (fun uv ux vx => prod uv ux) + tri p q z (fun uv ux vx => prod ux vx))%Z.
    Proof.
      unfold value, adds. rewrite zsum_concat, flat_map_concat_map, zsum_concat, map_map.
      transitivity (sumn n (fun u => sumn n (fun v => sumn n (fun x => term u v x)))).
      - unfold sumn at 1. apply zsum_ext. intros u Hu. apply in_seq in Hu. rewrite map_map.
        assert (Hu' : u < n) by lia. pose proof (inc_NoDup (Hinc Hu')) as N. rewrite <- keys_indexed in N.
        rewrite (@key_sum _ (fun t => fst (snd t)) _ n (indexed (dg u)) N).
        2:{ intros [i [v w]] Ht. apply In_indexed in Ht. cbn. apply (@Hrange u); auto. apply nth_error_In in Ht. change v with (fst (v, w)). now apply in_map. }
        apply sumn_ext. intros v Hv. fold (look (dg u) v). destruct (look (dg u) v) as [[i [y w]]|] eqn:E; cbn [opt].
        + apply (@look_iff _ _ _ _ (Hinc Hu')) in E as [E Ey]. cbn in Ey. subst y. now apply edge_value.
        + symmetry. unfold term, tri. rewrite E. cbn [opt]. transitivity (sumn n (fun _ => 0%Z)); [|apply sumn_zero]. apply sumn_ext. intros x _. destruct (u =? p), (v =? q), (v =? p), (x =? q); reflexivity.
      - pose proof Hq as Hq'. unfold term. 
        transitivity (sumn n (fun u => sumn n (fun v => sumn n (fun x => if (u =? p)%nat then if (x =? q)%nat then tri u v x (fun uv ux vx => prod uv vx) else 0 else 0)))
                      + sumn n (fun u => sumn n (fun v => sumn n (fun x => if (v =? p)%nat then if (x =? q)%nat then tri u v x (fun uv ux vx => prod uv ux) else 0 else 0)))
                      + sumn n (fun u => sumn n (fun v => sumn n (fun x => if (u =? p)%nat then if (v =? q)%nat then tri u v x (fun uv ux vx => prod ux vx) else 0 else 0))))%Z.
        { rewrite <- !sumn_plus. apply sumn_ext. intros u _. rewrite <- !sumn_plus. apply sumn_ext. intros v _. rewrite <- !sumn_plus. reflexivity. }
        rewrite !sumn_plus. f_equal; [f_equal|].
        + transitivity (sumn n (fun u => if u =? p then sumn n (fun v => tri u v q (fun uv ux vx => prod uv vx)) else 0%Z)); [|now rewrite sumn_single].
          apply sumn_ext. intros u _. rewrite <- sumn_if. apply sumn_ext. intros v _. rewrite sumn_if. destruct (u =? p); auto. exact (@sumn_single n q (fun x => tri u v x (fun uv ux vx => prod uv vx)) Hq').
        + apply sumn_ext. intros u _.
          transitivity (sumn n (fun v => if v =? p then tri u v q (fun uv ux vx => prod uv ux) else 0%Z)); [|now rewrite sumn_single].
          apply sumn_ext. intros v _. rewrite sumn_if. destruct (v =? p); auto. exact (@sumn_single n q (fun x => tri u v x (fun uv ux vx => prod uv ux)) Hq').
        + transitivity (sumn n (fun u => if (u =? p)%nat then sumn n (fun v => if (v =? q)%nat then sumn n (fun x => tri u v x (fun uv ux vx => prod ux vx)) else 0) else 0)%Z).
          * apply sumn_ext. intros u _. rewrite <- sumn_if. apply sumn_ext. intros v _. rewrite sumn_if. destruct (u =? p); auto. now rewrite sumn_if.
          * rewrite sumn_single by auto. now rewrite sumn_single.
    Qed.
  End Edge.
End Counts.
