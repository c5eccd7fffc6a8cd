(* Model of benchmarks/CliqueCounting/peel.h:19-54 vtx_intersect with its two neighbour iterators (FIModel), where KPModel has
   only the lists.  keep w stands for ignore_f(vg, w) && ignore_f(vdg, w); the result is the calls of f. *)
From Verif Require Import Base FIModel.
Unset Strict Implicit.

Section m.
  Context {W : Type}.
  Variables arr_i arr_v : list (nat * W).  (* the edges of vdg in DG and of vg in G, with what follows in memory *)
  Variables i_deg v_deg : nat.
  Variable keep : nat -> bool.

  (* peel.h:41-42, 45, 48 *)
  Definition advance (arr : list (nat * W)) (it : iter) : option iter :=
    if has_next it then match next arr it with Some (_, it') => Some it' | None => None end else Some it.

  (* peel.h:30-50; acc is the neighbours for which f was called, the counter j is its length; None when a read or the fuel fails *)
  Fixpoint vtx_loop (fuel i_idx v_idx : nat) (i_iter v_iter : iter) (acc : list nat) : option (list nat) :=
    match fuel with
    | 0 => None
    | S fuel =>
        if (i_idx <? i_deg) && (v_idx <? v_deg) then
          match cur i_iter, cur v_iter with
          | Some a, Some b =>
              if fst a =? fst b then
                match advance arr_i i_iter, advance arr_v v_iter with
                | Some i', Some v' => vtx_loop fuel (S i_idx) (S v_idx) i' v' (if keep (fst a) then acc ++ [fst a] else acc)
                | _, _ => None
                end
              else if fst a <? fst b then
                match advance arr_i i_iter with
                | Some i' => vtx_loop fuel (S i_idx) v_idx i' v_iter acc
                | None => None
                end
              else
                match advance arr_v v_iter with
                | Some v' => vtx_loop fuel i_idx (S v_idx) i_iter v' acc
                | None => None
                end
          | _, _ => None
          end
        else Some acc
    end.

  (* peel.h:19-54 *)
  Definition vtx_intersect_it (vdg : nat) : option (list (nat * nat)) :=
    match get_iter arr_i i_deg, get_iter arr_v v_deg with
    | Some i_iter, Some v_iter =>
        match vtx_loop (S (i_deg + v_deg)) 0 0 i_iter v_iter [] with
        | Some ws => Some (map (fun w => (w, 1)) ws ++ [(vdg, length ws)])
        | None => None
        end
    | _, _ => None
    end.
End m.
