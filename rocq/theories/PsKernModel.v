(** The product-state fixed-point iteration, my_pyscf/mcscf/productstate.py:27-67 and 186-204.
    What a fragment CI solver computes is a parameter; the loop, the convergence test and the
    bookkeeping are modelled. *)
From Coq Require Import List Arith Bool.
From Verif Require Import Base.
Import ListNotations.

Section K.
(** C: CI vectors of one fragment; V: energies; H: effective Hamiltonians of all fragments *)
Variables (C V H : Type).
(** solver.kernel of fragment number i at the effective Hamiltonians h and guess c: energy, CI
    vectors, and the solver's [converged] attribute afterwards *)
Variable solve : nat -> H -> C -> V * C * bool.
(** get_init_guess; project_hfrag (a child class may also modify ci) *)
Variable init_guess : list C -> list C.
Variable project : list C -> H * list C.
(** grad_max < conv_tol_grad, e_sigma < conv_tol_self *)
Variable grad_small : H -> list C -> bool.
Variable sigma_small : list V -> bool.
Variable serialfrag : bool.

Record kstate := mkKS { k_e : list V; k_ci : list C; k_conv : list bool }.

(** _1shot: productstate.py:186-204; [k_conv] is the list of the solvers' attributes *)
Fixpoint shot_from (ifrag nfrag it : nat) (h : H) (e : list V) (ci : list C) (cv : list bool) : list V * list C * list bool :=
  match e, ci, cv with
  | e0 :: e', c :: ci', v :: cv' =>
      let '(er, cr, vr) := shot_from (S ifrag) nfrag it h e' ci' cv' in
      if serialfrag && negb (it mod nfrag =? ifrag) then (e0 :: er, c :: cr, v :: vr)
      else let '(e1, c1, v1) := solve ifrag h c in (e1 :: er, c1 :: cr, v1 :: vr)
  | _, _, _ => (e, ci, cv)
  end.
Definition one_shot (it : nat) (h : H) (e : list V) (ci0 : list C) (cv : list bool) : kstate :=
  let '(e1, c1, v1) := shot_from 0 (length ci0) it h e ci0 cv in mkKS e1 c1 v1.

(** all ([l]): the only element tested is the list l itself, which is true when it is not empty *)
Definition py_all_of_list (l : list bool) : bool := negb (match l with [] => true | _ => false end).

(** kernel: productstate.py:27-67; [n] cycles remain.  With no fragments np.concatenate raises
    ValueError; with max_cycle_macro = 0 the name [it] is unbound. *)
Fixpoint loop (n it : nat) (s : kstate) : bool * list C * list bool :=
  match n with
  | O => (false, init_guess (k_ci s), k_conv s)
  | S n' =>
      let ci0 := init_guess (k_ci s) in
      let '(h, ci0) := project ci0 in
      if grad_small h ci0 && sigma_small (k_e s) && py_all_of_list (k_conv s) && (0 <? it)
      then (true, k_ci s, k_conv s)
      else loop n' (S it) (one_shot it h (k_e s) ci0 (k_conv s))
  end.
Definition kernel (max_cycle : nat) (s : kstate) : res (bool * list C * list bool) :=
  match max_cycle with
  | O => Raise NameError
  | S _ => match k_conv s with [] => Raise ValueError | _ => Ok (loop max_cycle 0 s) end
  end.
End K.
