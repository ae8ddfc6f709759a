(** exploratory/unitary_cc/uccsd_sym1.py: the generators of spin-adapted coupled cluster operators.

    Arrays of orbital indices have dtype uint8 in the code; sums with norb are taken not to overflow. *)
From Coq Require Import List ZArith Arith Bool.
From Verif Require Import Base UccModel.
Import ListNotations.

Notation gen := (list nat * list nat)%type.

(** spincases: uccsd_sym1.py:15-56.  The loop over electrons: *)
Definition spin_step (norb : nat) (rows : list (list nat * nat)) (ielec : nat) : list (list nat * nat) :=
  rows ++ map (fun r => (upd ielec (fun x => (x + norb)%nat) (fst r), S (snd r))) rows.
Definition spin_rows (norb : nat) (p : list nat) : list (list nat * nat) :=
  fold_left (spin_step norb) (seq 0 (length p)) [(p, 0%nat)].
(** np.unique of the sorted rows, with the first index of each: uccsd_sym1.py:52-55 *)
Definition row_key (r : list nat * nat) : list Z := map Z.of_nat (sort_n (fst r)).
Fixpoint insert_row (r : list nat * nat) (l : list (list nat * nat)) : list (list nat * nat) :=
  match l with
  | [] => [r]
  | y :: l' => match lexcmp (row_key r) (row_key y) with Lt => r :: l | Eq => l | Gt => y :: insert_row r l' end
  end.
Definition spincases (norb : nat) (p : list nat) : list (list nat * nat) :=
  fold_left (fun l r => insert_row r l) (spin_rows norb p) [].

(** the generators made of one pair of lists with two or more orbitals: uccsd_sym1.py:118-132 *)
Definition enum {A} (l : list A) : list (nat * A) := combine (seq 0 (length l)) l.
Definition cases (norb : nat) (a i : list nat) : list gen :=
  flat_map (fun x => let '(ix, (ab, ma)) := x in
    if nodupb ab then
      flat_map (fun y => let '(jx, (ij, mi)) := y in
        if negb (mi =? ma)%nat then []
        else if list_eqb ab ij then []
        else if list_eqb a i && (jx <? ix)%nat then []
        else if nodupb ij then [(ab, ij)] else []) (enum (spincases norb i))
    else []) (enum (spincases norb a)).

(** the loop of __init__: uccsd_sym1.py:94-132 *)
Fixpoint build (norb : nat) (s2sym : bool) (l : list gen) (gens : list gen) (symtab : list (list nat))
    : res (list gen * list (list nat)) :=
  match l with
  | [] => Ok (gens, symtab)
  | (a, i) :: r =>
      py_assert (length a =? length i)%nat
      match a with
      | [] => Raise ValueError
      | [_] =>
          let up := map (fun x => (x + norb)%nat) in
          let k := length gens in
          build norb s2sym r (gens ++ [(a, i); (up a, up i)]) (symtab ++ (if s2sym then [[k; S k]] else [[k]; [S k]]))
      | _ =>
          let new := cases norb a i in
          build norb s2sym r (gens ++ new) (symtab ++ map (fun k => [k]) (seq (length gens) (length new)))
      end
  end.

Section T.
Variable T : Type.
Variable t0 : T.
(** __init__ and assert_sanity: uccsd_sym1.py:91-145 *)
Definition nbeta (norb : nat) (l : list nat) : nat := list_sum (map (fun x => (x / norb)%nat) l).
Definition init1 (norb : nat) (s2sym : bool) (a_idxs i_idxs : list (list nat)) : res (uop T * list (list nat)) :=
  do b <- build norb s2sym (combine a_idxs i_idxs) [] [] ;;
  do _ <- assert_sanity (2 * norb) (fst b) ;;
  py_assert (forallb (fun g => (nbeta norb (fst g) =? nbeta norb (snd g))%nat) (fst b))
  (Ok (mkU T (2 * norb) (fst b) (repeat t0 (length (fst b))), snd b)).

(** np.tril_indices, row by row *)
Definition tril_strict (norb : nat) : list (nat * nat) := flat_map (fun p => map (fun q => (p, q)) (seq 0 p)) (seq 0 norb).
Definition tril (norb : nat) : list (nat * nat) := flat_map (fun p => map (fun q => (p, q)) (seq 0 (S p))) (seq 0 norb).
(** get_uccs_op: uccsd_sym1.py:205-215 *)
Definition get_uccs_op (norb : nat) (t1 : option (nat -> nat -> T)) (freeze_mask : option (nat -> nat -> bool))
    : res (uop T * list (list nat)) :=
  let idx := match freeze_mask with None => tril_strict norb | Some f => filter (fun x => negb (f (fst x) (snd x))) (tril_strict norb) end in
  do u <- init1 norb true (map (fun x => [fst x]) idx) (map (fun x => [snd x]) idx) ;;
  match t1 with
  | None => Ok u
  | Some t1 => Ok (set_amps T (fst u) (set_uniq T (snd u) (map (fun x => t1 (fst x) (snd x)) idx) (u_amps T (fst u))), snd u)
  end.

(** itertools.combinations_with_replacement (l, 2) *)
Fixpoint cwr {A} (l : list A) : list (A * A) :=
  match l with [] => [] | x :: r => map (pair x) l ++ cwr r end.
(** get_uniq_amps: uccsd_sym1.py:136, 147-154.  The index array of an operator without generators is
    np.array ([]), which has float elements and cannot index. *)
Definition get_uniq_amps (symtab : list (list nat)) (amps : list T) : res (list T) :=
  match symtab with [] => Raise IndexError | _ => Ok (get_uniq T t0 symtab amps) end.
(** get_uccsd_op: uccsd_sym1.py:262-273 *)
Definition get_uccsd_op (norb : nat) (t1 : option (nat -> nat -> T)) (s2sym : bool) : res (uop T * list (list nat)) :=
  let idx := tril_strict norb in
  let two := cwr (map (fun x => [fst x; snd x]) (tril norb)) in
  do u <- init1 norb s2sym (map (fun x => [fst x]) idx ++ map fst two) (map (fun x => [snd x]) idx ++ map snd two) ;;
  do x0 <- get_uniq_amps (snd u) (u_amps T (fst u)) ;;
  let x0 := match t1 with None => x0 | Some t1 => map (fun x => t1 (fst x) (snd x)) idx ++ skipn (length idx) x0 end in
  Ok (set_amps T (fst u) (set_uniq T (snd u) x0 (u_amps T (fst u))), snd u).
End T.
