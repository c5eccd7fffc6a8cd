(* Model of gbbs/bucket.h (the bucketing structure of Julienne) on gbbs/helpers/dyn_arr.h.

   Identifiers and bucket ids are nat; null is numeric_limits<bucket_id>::max().  A
   bucket_dest is an option, None standing for null_bkt.  The materialised buckets are lists;
   dyn_arr::resize only makes room.  The user's map d is an argument of every operation,
   because the user changes it between calls.  size_t arithmetic is not wrapped: all products
   are below 2^64 for 32-bit bucket ids. *)
From Coq Require Import Permutation.
From Verif Require Import Base GBModel.

Section BK.
  Variable inc : bool.        (* order == increasing *)
  Variable o : nat.           (* open_buckets = total_buckets - 1 *)
  Variable null : nat.

  Record bst := { bk : list (list nat); cur : nat; range : nat; nelm : nat }.
  Definition bucket (s : bst) (j : nat) : list nat := nth j (bk s) [].

  (* bucket.h:386-403 to_range *)
  Definition to_range (r : nat) (b : nat) : option nat :=
    if inc
    then if b <? r * o then None else Some (if b <? (r + 1) * o then b mod o else o)
    else if r * o <=? b then None else Some (if (r - 1) * o <=? b then o - b mod o - 1 else o).

  (* bucket.h:313-319 insert_in_bucket, and the increment of num_elms at 306 *)
  Definition push (s : bst) (vb : nat * option nat) : bst :=
    match snd vb with
    | None => s
    | Some b => {| bk := lset (bk s) b (bucket s b ++ [fst vb]); cur := cur s; range := range s; nelm := nelm s + 1 |}
    end.
  (* bucket.h:297-311 update_buckets_seq *)
  Definition update_seq (l : list (nat * option nat)) (s : bst) : bst := fold_left push l s.

  (* bucket.h:82-126, the constructor; reduce by its specification *)
  Definition min_bucket (l : list nat) : nat := fold_right Nat.min null l.
  Definition max_bucket (l : list nat) : nat := fold_right Nat.max 0 l.
  Definition make (n : nat) (d : nat -> nat) : bst :=
    let r := if inc then min_bucket (map d (seq 0 n)) / o
             else (max_bucket (map (fun i => if d i =? null then 0 else d i) (seq 0 n)) + o) / o in
    update_seq (map (fun i => (i, if d i =? null then None else to_range r (d i))) (seq 0 n))
               {| bk := repeat [] (o + 1); cur := 0; range := r; nelm := 0 |}.

  (* bucket.h:149-158 get_bucket(prev, next) *)
  Definition get_bucket2 (s : bst) (prev next : nat) : option nat :=
    let pb := to_range (range s) prev in
    match to_range (range s) next with
    | None => None
    | Some nb => if (prev =? null) || negb (match pb with Some p => p =? nb | None => false end) || (nb =? cur s)
                 then Some nb else None
    end.
  (* bucket.h:161-182 get_bucket(next) *)
  Definition get_bucket1 (s : bst) (next : nat) : option nat :=
    match to_range (range s) next with
    | None => None
    | Some nb => if inc then if nb =? o then None else Some nb else Some nb
    end.

  (* bucket.h:323-375 unpack; None: the assertion m == num_elms fails *)
  Definition unpack (d : nat -> nat) (s : bst) : option bst :=
    let tmp := bucket s o in
    let m := length tmp in
    if m =? nelm s then
      let r1 := if inc then range s + 1 else range s - 1 in
      let s1 := {| bk := lset (bk s) o []; cur := cur s; range := r1; nelm := nelm s |} in
      let s2 := update_seq (map (fun v => (v, to_range r1 (d v))) tmp) s1 in
      let over := bucket s2 o in
      let num_in_range := nelm s2 - nelm s1 - length over in
      let r2 := if (num_in_range =? 0) && (0 <? length over)
                then if inc then fold_right Nat.min (d (hd 0 over)) (map d over) / o - 1
                     else (o + fold_right Nat.max 0 (map d over)) / o + 1
                else r1 in
      Some {| bk := bk s2; cur := cur s2; range := r2; nelm := nelm s2 - m |}
    else None.
  (* bucket.h:377-384 _next_bucket *)
  Definition advance (d : nat -> nat) (s : bst) : option bst :=
    if cur s + 1 =? o
    then option_map (fun s' => {| bk := bk s'; cur := 0; range := range s'; nelm := nelm s' |})
                    (unpack d {| bk := bk s; cur := o; range := range s; nelm := nelm s |})
    else Some {| bk := bk s; cur := cur s + 1; range := range s; nelm := nelm s |}.
  (* bucket.h:405-411 get_cur_bucket_num *)
  Definition cur_num (s : bst) : nat := if inc then range s * o + cur s else range s * o - cur s - 1.

  Inductive outcome := Out_of_fuel | Assertion_failed | Ret (r : option (nat * list nat)) (s : bst).
  (* bucket.h:137-146 next_bucket and 413-427 get_cur_bucket.  None: the null bucket *)
  Fixpoint next_bucket (fuel : nat) (d : nat -> nat) (s : bst) : outcome :=
    match fuel with
    | 0 => Out_of_fuel
    | S fuel =>
        if (length (bucket s (cur s)) =? 0) && (0 <? nelm s)
        then match advance d s with
             | None => Assertion_failed
             | Some s' => next_bucket fuel d s'
             end
        else if nelm s =? 0 then Ret None s
        else
          let b := bucket s (cur s) in
          let filtered := filter (fun i => d i =? cur_num s) b in
          let s' := {| bk := lset (bk s) (cur s) []; cur := cur s; range := range s; nelm := nelm s - length b |} in
          match filtered with
          | [] => next_bucket fuel d s'
          | _ => Ret (Some (cur_num s, filtered)) s'
          end
    end.

  (* -- bulk update ----------------------------------------------------------------------
     bucket.h:194-284 update_buckets, parallel path; g is the constant 4096, t = total_buckets *)
  Variable g : nat.
  Definition num_blocks (k : nat) : nat := 2 ^ Nat.log2_up (k / g).
  Definition block_size (k : nat) : nat := (k + num_blocks k - 1) / num_blocks k.
  Definition upd_block (l : list (nat * option nat)) (i : nat) : list (nat * option nat) :=
    firstn (block_size (length l)) (skipn (i * block_size (length l)) l).
  Definition goes (b : nat) (vb : nat * option nat) : bool := match snd vb with Some b' => b' =? b | None => false end.
  (* 212-226: hists[i * total_buckets + b] *)
  Definition hist (l : list (nat * option nat)) (i b : nat) : nat := length (filter (goes b) (upd_block l i)).
  (* 228-242: outs, then the exclusive scan *)
  Fixpoint scan_from (acc : nat) (l : list nat) : list nat :=
    match l with [] => [] | x :: l' => acc :: scan_from (acc + x) l' end.
  Definition outs (l : list (nat * option nat)) : list nat :=
    let nb := num_blocks (length l) in
    scan_from 0 (map (fun i => hist l (i mod nb) (i / nb)) (seq 0 (nb * (o + 1))) ++ [0]).
  (* 244-249, 279-283 *)
  Definition num_inc (l : list (nat * option nat)) (b : nat) : nat :=
    let nb := num_blocks (length l) in nth ((b + 1) * nb) (outs l) 0 - nth (b * nb) (outs l) 0.
  (* 251-258 *)
  Definition start_off (l : list (nat * option nat)) (b i : nat) : nat :=
    let nb := num_blocks (length l) in nth (b * nb + i) (outs l) 0 - nth (b * nb) (outs l) 0.
  (* 260-276: the stores made for one block, each (bucket, index within the bucket's array, v) *)
  Fixpoint block_stores (s : bst) (cnt : nat -> nat) (l : list (nat * option nat)) : list (nat * nat * nat) :=
    match l with
    | [] => []
    | (v, None) :: l' => block_stores s cnt l'
    | (v, Some b) :: l' => (b, length (bucket s b) + cnt b, v) :: block_stores s (fset cnt b (cnt b + 1)) l'
    end.
  Definition all_stores (l : list (nat * option nat)) (s : bst) : list (nat * nat * nat) :=
    flat_map (fun i => block_stores s (fun b => start_off l b i) (upd_block l i)) (seq 0 (num_blocks (length l))).
  (* the resized arrays hold arbitrary contents (junk) behind the current elements; order is
     the order in which the stores of all the blocks take effect.  None: out of bounds *)
  Fixpoint run_bstores (order : list (nat * nat * nat)) (arr : list (list nat)) : option (list (list nat)) :=
    match order with
    | [] => Some arr
    | (b, p, v) :: order' =>
        if (b <? length arr) && (p <? length (nth b arr [])) then run_bstores order' (lset arr b (lset (nth b arr []) p v)) else None
    end.
  Definition update_par (order : list (nat * nat * nat)) (junk : nat) (l : list (nat * option nat)) (s : bst) : option bst :=
    match run_bstores order (map (fun b => bucket s b ++ repeat junk (num_inc l b)) (seq 0 (o + 1))) with
    | None => None
    | Some arr => Some {| bk := arr; cur := cur s; range := range s;
                          nelm := nelm s + list_sum (map (num_inc l) (seq 0 (o + 1))) |}
    end.
End BK.
