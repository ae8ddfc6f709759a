(** The remaining terms of the Hamiltonian before spin factors, as in [SpfacModel]: my_pyscf/lassi/op_o1/hams2ovlp.py:305-493. *)
From Coq Require Import List Bool Arith ZArith Reals.
From Verif Require Import Base SmultModel SpfacModel.
Import ListNotations.
Local Open Scope R_scope.

(** _crunch_1c1d_, ham: hams2ovlp.py:305-337; fac: the signs of lines 311-312; fragments [i; j; k] *)
Definition term_1c1d (ni nj nk s1 : nat) (fac : R) (h_kkji h_jkki : nat -> nat -> nat -> nat -> R) (p_i h_j : nat -> R) (d_k : nat -> nat -> nat -> R) : list (R * list nat) :=
  let d s r u := if (s =? 0)%nat then cs d_k 0 r u else cs d_k 1 r u * (if (s1 =? 0)%nat then 1 else -1) in
  let hop h := sm nj (fun y => h_j y * sm ni (fun z => p_i z * h y z)) in
  let ham0 := sm nk (fun r => sm nk (fun u => d 0%nat r u * hop (h_kkji u r))) in
  let ex s := sm nk (fun r => sm nk (fun u => d s r u / 2 * hop (fun y z => h_jkki y r u z))) in
  [((ham0 - ex 0%nat) * fac, [0; 0; 0]%nat); ((0 - ex 1%nat) * fac, [0; 0; 1]%nat)].
(** _crunch_1s_, ham: hams2ovlp.py:339-367; fragments [i; j] *)
Definition term_1s (ni nj : nat) (h_jiij : nat -> nat -> nat -> nat -> R) (sp_i sm_j : nat -> nat -> R) : list (R * list nat) :=
  [(sm nj (fun p => sm nj (fun q => sm_j p q * sm ni (fun r => sm ni (fun u => sp_i r u * h_jiij p u r q)))) * (-1), [])].
(** _crunch_1s1c_, ham: hams2ovlp.py:369-402; d_kk is sm for s1 = 0 and sp for s1 = 1; fragments [i; j; k] *)
Definition term_1s1c (ni nj nk : nat) (fac : R) (h_jkki : nat -> nat -> nat -> nat -> R) (p_i h_j : nat -> R) (d_kk : nat -> nat -> R) : list (R * list nat) :=
  [(sm nk (fun r => sm nk (fun u => d_kk r u * sm nj (fun y => h_j y * sm ni (fun z => p_i z * h_jkki y r u z)))) * fac, [])].
(** _crunch_2c_, ham: hams2ovlp.py:404-492, all cases.  hh[w,x], or h_j[w] h_i[x] when i and j differ, is [t_ij]; pp[y,z], or p_a[y] p_b[z], is
    [t_ab]; [same]: both electrons have the same spin; fac: the signs of lines 434-444; fragments [i; a], [i; j; a], [i; a; b] or [i; j; a; b] *)
Definition term_2c_any (norb : nat -> nat) (a i b j : nat) (same : bool) (fac : R) (h2 : nat * nat -> nat * nat -> nat * nat -> nat * nat -> R) (t_ij t_ab : nat -> nat -> R) : list (R * list nat) :=
  let fac := (if (a =? b)%nat && (i =? j)%nat && same then 1 / 2 else 1) * fac in
  let h_j w x y z := h2 (j, w) (b, z) (i, x) (a, y) in
  let h_k w x y z := h2 (j, w) (a, y) (i, x) (b, z) in
  let dot (h : nat -> nat -> nat -> nat -> R) := sm (norb j) (fun w => sm (norb i) (fun x => t_ij w x * sm (norb a) (fun y => sm (norb b) (fun z => t_ab y z * h w x y z)))) in
  let zeros := (if (i =? j)%nat then [0] else [0; 0])%nat ++ (if (a =? b)%nat then [0] else [0; 0])%nat in
  let ones := (if (i =? j)%nat then [1] else [0; 0])%nat ++ (if (a =? b)%nat then [1] else [0; 0])%nat in
  if negb same && ((a =? b)%nat || (i =? j)%nat)
  then [(dot (fun w x y z => h_j w x y z + h_k w x y z) * (fac * (1 / 2)), zeros); (dot (fun w x y z => h_j w x y z - h_k w x y z) * (fac * (1 / 2)), ones)]
  else if same && negb (a =? b)%nat && negb (i =? j)%nat then [(dot (fun w x y z => h_j w x y z - h_k w x y z) * fac, [])]
  else [(dot h_j * fac, [])].
