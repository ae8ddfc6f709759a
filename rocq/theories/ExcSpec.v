(** What the rows of the interaction tables mean, from the docstrings of the _crunch_ functions
    (lassi/op_o1/stdm.py:785-992): the field operators of each kind of interaction. *)
From Coq Require Import List ZArith Arith.
Import ListNotations.
Local Open Scope Z_scope.

(** A field operator: fragment and spin (0 up, 1 down). *)
Definition fop := (nat * nat)%type.
Fixpoint times (x : fop) (l : list fop) : Z :=
  match l with [] => 0 | y :: l => (if (fst x =? fst y)%nat then if (snd x =? snd y)%nat then 1 else 0 else 0) + times x l end.
(** Electrons of spin s gained by fragment f *)
Definition moves (cre ann : list fop) (f s : nat) : Z := times (f, s) cre - times (f, s) ann.
(** i'(s1) j(s1) *)
Definition ops_1c (i j s : nat) : list fop * list fop := ([(i, s)], [(j, s)]).
(** i'(a) j'(b) i(b) j(a) *)
Definition ops_1s (i j : nat) : list fop * list fop := ([(i, 0%nat); (j, 1%nat)], [(i, 1%nat); (j, 0%nat)]).
(** i'(s1) k'(1-s1) j(1-s1) k(s1) *)
Definition ops_1s1c (i j k s : nat) : list fop * list fop := ([(i, s); (k, 1 - s)%nat], [(j, 1 - s)%nat; (k, s)]).
(** i'(s1) k'(s2) l(s2) j(s1); s2lt = 0, 1, 2 stands for spins aa, ab, bb *)
Definition ops_2c (i j k l s2lt : nat) : list fop * list fop :=
  let s1 := Nat.div s2lt 2 in let s2 := (s2lt - s1)%nat in ([(i, s1); (k, s2)], [(l, s2); (j, s1)]).
