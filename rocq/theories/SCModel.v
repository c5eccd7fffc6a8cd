(* Model of benchmarks/StronglyConnectedComponents/RandomGreedyBGSS16/StronglyConnectedComponents.h,
   with the hash table of gbbs/helpers/resizable_table.h as a set of (vertex, label) pairs and its size.

   A label is a word of 64 bits: the top bit (this component is final) and the rest.
   The table: insert, contains and the probes of one key by their specification; an insert is one step.
   When an insert made by a search takes the last free entry, the iteration over the entries of the source
   that follows it never meets an empty entry and does not end: the outcome None. *)
From Coq Require Import Permutation.
From Verif Require Import Base VSModel EMModel FAModel.

(* 35-37 TOP_BIT, VAL_MASK, label_type *)
Definition label : Type := (bool * nat)%type.
(* the order of the words *)
Definition lless (a b : label) : bool := (negb (fst a) && fst b) || (Bool.eqb (fst a) (fst b) && (snd a <? snd b)).
Definition leqb (a b : label) : bool := Bool.eqb (fst a) (fst b) && (snd a =? snd b).
(* bridge.h write_max, by C11 *)
Definition wmax (L : nat -> label) (v : nat) (x : label) : nat -> label := fset L v (if lless (L v) x then x else L v).

Definition entries : Type := list (nat * nat).
Definition stored (v l : nat) (T : entries) : bool := existsb (fun p => (fst p =? v) && (snd p =? l)) T.
(* the labels of v: resizable_table.h:51-88 iter_kv, 224-236 num_appearances *)
Definition labels_of (v : nat) (T : entries) : list nat := map snd (filter (fun p => fst p =? v) T).

Section SCC.
  Variable n : nat.

  (* -- first_search, 155-193: the visit-once function of EMModel; the final vertices count as visited from
     the start.  m = G.m.  The flag in_edges exchanges outn and inn. *)
  Definition no_flags : eflags := {| f_dense_only := false; f_no_dense := false; f_dense_forward := false; f_dense_parallel := false |}.
  Inductive first_loop (outn inn : nat -> list nat) (m start : nat) (par0 : pstate) : pstate -> vset unit -> Prop :=
  | first_start : first_loop outn inn m start par0 (fset par0 start (Some start)) (vs_sparse n [(start, tt)])
  | first_round : forall par U par' U', first_loop outn inn m start par0 par U -> size U <> 0 ->
      edgeMap_visit n outn inn m None no_flags U par par' U' -> first_loop outn inn m start par0 par' U'.
  Definition first_search (outn inn : nat -> list nat) (m : nat) (L : nat -> label) (start : nat) (flags : nat -> bool) : Prop :=
    exists par U, first_loop outn inn m start (fun v => if fst (L v) then Some v else None) par U /\ size U = 0 /\
      forall v, flags v = match par v with Some _ => negb (fst (L v)) | None => false end.

  (* -- multi_search, 48-153 *)
  Section Search.
    Variable outn : nat -> list nat.
    Variable L : nat -> label.
    (* 58-84 updateAtomic *)
    Inductive spc :=
    | SStart                                                  (* 60-62 *)
    | SIter (must seen : list nat) (changed : bool)           (* 64-76; must: the labels there at the start *)
    | SFlag                                                   (* 80 *)
    | SDone (r : bool).
    Record mem := { tab : entries; bits : nat -> bool }.
    (* the source, the target; one step *)
    Inductive act (s d : nat) : mem -> spc -> mem -> spc -> Prop :=
    | a_other : forall m, leqb (L s) (L d) = false -> act s d m SStart m (SDone false)
    | a_begin : forall m, leqb (L s) (L d) = true -> act s d m SStart m (SIter (labels_of s (tab m)) [] false)
    | a_old : forall m must seen ch l, stored s l (tab m) = true -> ~ In l seen -> stored d l (tab m) = true ->
        act s d m (SIter must seen ch) m (SIter must (l :: seen) ch)
    | a_new : forall m must seen ch l, stored s l (tab m) = true -> ~ In l seen -> stored d l (tab m) = false ->
        act s d m (SIter must seen ch) {| tab := tab m ++ [(d, l)]; bits := bits m |} (SIter must (l :: seen) true)
    | a_end : forall m must seen ch, incl must seen -> act s d m (SIter must seen ch) m (if ch then SFlag else SDone false)
    | a_cas : forall m, bits m d = false -> act s d m SFlag {| tab := tab m; bits := fset (bits m) d true |} (SDone true)
    | a_lost : forall m, bits m d = true -> act s d m SFlag m (SDone false).
    (* the calls of one edgeMap: 86-90 cond reads only the labels, which do not change here *)
    Definition scalls (F : list nat) : list (nat * nat) :=
      flat_map (fun s => map (fun d => (s, d)) (filter (fun d => negb (fst (L d))) (outn s))) F.
    (* cap: the size of the table *)
    Inductive sexec (cs : list (nat * nat)) (cap : nat) : mem -> list spc -> mem -> list spc -> Prop :=
    | se_nil : forall m ps, sexec cs cap m ps m ps
    | se_step : forall m ps m1 ps1 i s d p m2 p2, sexec cs cap m ps m1 ps1 ->
        nth_error cs i = Some (s, d) -> nth_error ps1 i = Some p -> act s d m1 p m2 p2 -> length (tab m2) < cap ->
        sexec cs cap m ps m2 (lset ps1 i p2).
    Definition sfinished (ps : list spc) : Prop := Forall (fun p => exists r, p = SDone r) ps.
    Definition soutput (cs : list (nat * nat)) (ps : list spc) : list nat :=
      flat_map (fun cp => match snd cp with SDone true => [snd (fst cp)] | _ => [] end) (combine cs ps).

    (* 124-138 *)
    Definition increments (F : list nat) (T : entries) : nat :=
      list_sum (map (fun v => length (filter (fun w => leqb (L w) (L v)) (outn v)) * length (labels_of v T)) F).
    (* resizable_table.h:164-184 maybe_resize, called when ne is the number of entries *)
    Definition resized (cap : nat) (T : entries) (inc : nat) : nat :=
      if cap <? 4 * (length T + inc) then 2 ^ Nat.log2_up (10 * (length T + inc)) else cap.
    (* 141-144 *)
    Definition unflag (F : list nat) (b : nat -> bool) : nat -> bool := fun v => if existsb (Nat.eqb v) F then false else b v.

    (* 120-151 the loop.  Some: the table and its size at the end.  None: it is full *)
    Inductive search_loop : nat -> list nat -> mem -> option (nat * entries) * (nat -> bool) -> Prop :=
    | sl_done : forall cap m, search_loop cap [] m (Some (cap, tab m), bits m)
    | sl_round : forall cap F m m1 ps F' r, F <> [] ->
        let cap1 := resized cap (tab m) (increments F (tab m)) in
        let cs := scalls F in
        sexec cs cap1 {| tab := tab m; bits := unflag F (bits m) |} (repeat SStart (length cs)) m1 ps ->
        sfinished ps -> Permutation F' (soutput cs ps) ->
        search_loop cap1 F' m1 r -> search_loop cap F m r
    | sl_full : forall cap F m m1 ps i s d p m2 p2, F <> [] ->
        let cap1 := resized cap (tab m) (increments F (tab m)) in
        let cs := scalls F in
        sexec cs cap1 {| tab := tab m; bits := unflag F (bits m) |} (repeat SStart (length cs)) m1 ps ->
        nth_error cs i = Some (s, d) -> nth_error ps i = Some p -> act s d m1 p m2 p2 -> cap1 <= length (tab m2) ->
        search_loop cap F m (None, bits m2).
    (* 106-118; resizable_table.h:128-138 the size *)
    Definition start_size (k : nat) : nat := 2 ^ Nat.log2_up (11 * 2 ^ Nat.log2_up (k * 2) / 10).
    Definition multi_search (b : nat -> bool) (centers : list nat) (off : nat) (r : option (nat * entries) * (nat -> bool)) : Prop :=
      exists T, Permutation T (combine centers (seq off (length centers))) /\
        search_loop (start_size (length centers)) centers {| tab := T; bits := b |} r.
  End Search.

  (* -- StronglyConnectedComponents, 195-380 *)
  Variables outn inn : nat -> list nat.
  Variable m : nat.                           (* G.m *)
  Variable next_step : nat -> nat.            (* 279: ceil(step_size * beta) *)

  (* 208-215 *)
  Definition zero : list nat := filter (fun v => (length (outn v) =? 0) || (length (inn v) =? 0)) (seq 0 n).
  Definition NZ : list nat := filter (fun v => (0 <? length (outn v)) && (0 <? length (inn v))) (seq 0 n).
  (* 202, 222-223 *)
  Definition first_labels : nat -> label :=
    fold_left (fun L i => fset L (nth i zero 0) (true, i + 1)) (seq 0 (length zero)) (fun _ => (false, 0)).
  (* 236-247: the last vertex of greatest out-degree *)
  Definition heaviest (v : nat) : Prop :=
    v < n /\ forall w, w < n -> length (outn w) <= length (outn v) /\ (v < w -> length (outn w) < length (outn v)).
  (* 250-261 and 303-317: the component of start, and what it reaches or is reached from *)
  Inductive one_search (L : nat -> label) (start l : nat) : (nat -> label) -> Prop :=
  | one_ok : forall inv outv, first_search inn outn m L start inv -> first_search outn inn m L start outv ->
      one_search L start l (fun v => if v <? n then if inv v && outv v then (true, l) else if inv v || outv v then (false, l) else L v else L v).
  (* 349-360, then 363-371: the entries of the two tables, in any order *)
  Definition intersect (L : nat -> label) (small large small' large' : entries) : nat -> label :=
    fold_left (fun L p => wmax L (fst p) (false, snd p)) large'
      (fold_left (fun L p => wmax L (fst p) (stored (fst p) (snd p) large, snd p)) small' L).
  (* 272-375 the loop: labels, bits, step_size, cur_offset = finished, cur_round, label_offset *)
  Inductive rounds (Q : list nat) : (nat -> label) -> (nat -> bool) -> nat -> nat -> nat -> nat -> option (nat -> label) -> Prop :=
  | r_done : forall L b step cur rd off, length Q <= cur -> rounds Q L b step cur rd off (Some L)
  | r_skip : forall L b step cur rd off r, cur < length Q ->
      let vs := Nat.min (cur + step) (length Q) - cur in
      filter (fun v => negb (fst (L v))) (firstn vs (skipn cur Q)) = [] ->
      rounds Q L b (next_step step) (cur + vs) (rd + 1) off r -> rounds Q L b step cur rd off r
  | r_first : forall L b step cur off c cs L' r, cur < length Q ->
      let vs := Nat.min (cur + step) (length Q) - cur in
      filter (fun v => negb (fst (L v))) (firstn vs (skipn cur Q)) = c :: cs ->
      one_search L c off L' ->
      rounds Q L' b (next_step step) (cur + vs) 1 (off + length (c :: cs)) r -> rounds Q L b step cur 0 off r
  | r_multi : forall L b b1 b2 step cur rd off centers ci ti co to small' large' r, cur < length Q ->
      let vs := Nat.min (cur + step) (length Q) - cur in
      filter (fun v => negb (fst (L v))) (firstn vs (skipn cur Q)) = centers -> centers <> [] ->
      multi_search inn L b centers off (Some (ci, ti), b1) ->
      multi_search outn L b1 centers off (Some (co, to), b2) ->
      let small := if ci <=? co then ti else to in
      let large := if ci <=? co then to else ti in
      Permutation small' small -> Permutation large' large ->
      rounds Q (intersect L small large small' large') b2 (next_step step) (cur + vs) (S rd + 1) (off + length centers) r ->
      rounds Q L b step cur (S rd) off r
  | r_full_in : forall L b b1 step cur rd off, cur < length Q ->
      let vs := Nat.min (cur + step) (length Q) - cur in
      let centers := filter (fun v => negb (fst (L v))) (firstn vs (skipn cur Q)) in centers <> [] ->
      multi_search inn L b centers off (None, b1) -> rounds Q L b step cur (S rd) off None
  | r_full_out : forall L b b1 b2 step cur rd off X, cur < length Q ->
      let vs := Nat.min (cur + step) (length Q) - cur in
      let centers := filter (fun v => negb (fst (L v))) (firstn vs (skipn cur Q)) in centers <> [] ->
      multi_search inn L b centers off (Some X, b1) -> multi_search outn L b1 centers off (None, b2) ->
      rounds Q L b step cur (S rd) off None.
  (* 225-270: the first search if start is not final, then the loop *)
  Inductive scc_labels (P : list nat) : option (nat -> label) -> Prop :=
  | s_final : forall start r, heaviest start -> fst (first_labels start) = true ->
      rounds (filter (fun v => negb (fst (first_labels v))) P) first_labels (fun _ => false) 1 0 0 (length zero + 1) r -> scc_labels P r
  | s_first : forall start L r, heaviest start -> fst (first_labels start) = false -> one_search first_labels start (length zero + 1) L ->
      rounds (filter (fun v => negb (fst (L v))) P) L (fun _ => false) 1 0 0 (length zero + 2) r -> scc_labels P r.
  (* 217: P is a shuffle of NZ; 377-379.  None: it does not return *)
  Definition scc_returns (comp : option (nat -> nat)) : Prop :=
    exists P r, Permutation P NZ /\ scc_labels P r /\
      match r with
      | None => comp = None
      | Some L => exists f, comp = Some f /\ forall v, f v = snd (L v) - 1
      end.

  (* 390-405 num_scc: the labels are marked, then counted *)
  Definition num_scc (comp : nat -> nat) : nat :=
    let flags := fold_left (fun f v => lset f (comp v) 1) (seq 0 n) (repeat 0 (n + 1)) in
    list_sum (firstn n flags).
End SCC.
