(** Groups of cached operators: lassi/op_o1/opterm.py:4-46 and the two places that shrink them,
    lassi/op_o1/hsi.py:901-912 and 966-973.  An operator is its list of participating fragments, its list
    of spin cases (bra, ket, fragments of the excitation) and a label standing for the array. *)
From Coq Require Import List Arith Bool ZArith.
From Verif Require Import Base.
Import ListNotations.

Definition okey := (nat * nat * list nat)%type.
Record opt := mkOpt { o_ints : list nat; o_keys : list okey; o_arr : nat }.
Record group := mkGroup { g_inv : list nat; g_ops : list opt; g_link : option (list (list nat)) }.

Section Nelec.
  (** electrons of a fragment in a rootspace: sum (inti.nelec_r[root]) *)
  Variable ne : nat -> nat -> Z.

  (** opterm.py:16-25 *)
  Definition op_neutral (o : opt) : res bool :=
    match o_keys o with
    | [] => Raise IndexError
    | (bra, ket, _) :: _ => Ok (forallb (fun f => negb (0 <? ne f bra - ne f ket)%Z) (o_ints o))
    end.
  (** opterm.py:14-29; None if nothing is left *)
  Definition neutral_only (g : group) : res (option group) :=
    bind (mapM (fun o => bind (op_neutral o) (fun b => Ok (if b then [o] else []))) (g_ops g)) (fun l =>
    match concat l with
    | [] => Ok None
    | ops => Ok (Some (mkGroup (g_inv g) ops (g_link g)))
    end).
  (** hsi.py:901-912: groups with fewer than three fragments *)
  Definition get_neutral (gs : list group) : res (list group) :=
    bind (mapM (fun g => if length (g_inv g) <? 3 then
                           bind (neutral_only g) (fun r => Ok (match r with Some g' => [g'] | None => [] end))
                         else Ok []) gs) (fun l => Ok (concat l)).
End Nelec.

(** opterm.py:31-46; the link table is not carried over *)
Definition subspace (keys : okey -> bool) (g : group) : option group :=
  match flat_map (fun o => match filter keys (o_keys o) with [] => [] | ks => [mkOpt (o_ints o) ks (o_arr o)] end) (g_ops g) with
  | [] => None
  | ops => Some (mkGroup (g_inv g) ops None)
  end.
(** hsi.py:966-973; [index] is _index_ovlppart, which fills in the link table of every group *)
Definition get_subspace_ops (index : group -> list (list nat)) (keys : okey -> bool) (gs : list group) : list group :=
  map (fun g => mkGroup (g_inv g) (g_ops g) (Some (index g)))
    (flat_map (fun g => match subspace keys g with Some g' => [g'] | None => [] end) gs).
