(** Spin factors with which terms made at high m are lowered: FragTDMInt.spin_factor_constant and spin_factor_component,
    my_pyscf/lassi/op_o1/frag.py:176-182, 1181-1206, and OpTerm.reduce_spin, my_pyscf/lassi/op_o1/opterm.py:85-102.

    Arithmetic is exact; numbers that are not defined (nan) are None, as in [SmultModel].  An operator array is taken element by element. *)
From Coq Require Import List Bool Arith ZArith Reals.
From Verif Require Import Base SmultModel.
Import ListNotations.
Local Open Scope Z_scope.

(** what a fragment knows about its parts of bra and ket: nelec_r and smult_r *)
Record info := mkInfo { i_bra : nat * nat; i_ket : nat * nat; i_sbra : Z; i_sket : Z }.
Definition spin_of (ne : nat * nat) : Z := Z.of_nat (fst ne) - Z.of_nat (snd ne).
(** the dictionary scale_dnelec: frag.py:176-182 *)
Definition scale_dnelec (d : Z * Z) (smult_bra smult_ket spin_ket : Z) : res num :=
  match d with
  | (-1, 0) => Ok (scale_h smult_bra 0 smult_ket spin_ket)
  | (0, -1) => Ok (scale_h smult_bra 1 smult_ket spin_ket)
  | (-2, 0) => Ok (scale_hh smult_bra 0 smult_ket spin_ket)
  | (-1, -1) => Ok (scale_hh smult_bra 1 smult_ket spin_ket)
  | (0, -2) => Ok (scale_hh smult_bra 2 smult_ket spin_ket)
  | (-1, 1) => Ok (scale_sm smult_bra smult_ket spin_ket)
  | (0, 0) => Ok (scale_dm smult_bra smult_ket spin_ket)
  | _ => Raise KeyError
  end.
(** spin_factor_constant: frag.py:1181-1195.  The function calls itself once at most, with bra and ket exchanged (line 1187). *)
Definition spin_factor_constant (x : info) : res num :=
  let d0 := Z.of_nat (fst (i_bra x)) - Z.of_nat (fst (i_ket x)) in
  let d1 := Z.of_nat (snd (i_bra x)) - Z.of_nat (snd (i_ket x)) in
  if (0 <? d0) || ((d0 =? 0) && (0 <? d1))
  then scale_dnelec (- d0, - d1) (i_sket x) (i_sbra x) (spin_of (i_bra x))
  else scale_dnelec (d0, d1) (i_sbra x) (i_sket x) (spin_of (i_ket x)).
(** spin_factor_component: frag.py:1197-1206.  Adding np.finfo (float).tiny changes 2s only if it is zero; then 2m = 0 is divided by tiny. *)
Definition spin_factor_component (x : info) (comp : nat) : R :=
  if negb (i_sbra x =? i_sket x) || (comp =? 0)%nat then 1%R
  else if i_sket x =? 1 then 0%R else (IZR (spin_of (i_ket x)) / IZR (i_sket x - 1))%R.
(** OpTerm.reduce_spin: opterm.py:91-102, when multiplicities are known.  One element of the components of the array, with their comp;
    comp is None for an array without components, which is one component with an empty comp here. *)
Definition reduce_spin (ints : list info) (arr : list (R * list nat)) : res num :=
  let fac (comp : list nat) : R := fold_left (fun f p => (f * spin_factor_component (fst p) (snd p))%R) (combine ints comp) 1%R in
  let v := fold_right (fun a r => (fst a * fac (snd a) + r)%R) 0%R arr in
  do c <- mapM spin_factor_constant ints ;;
  Ok (V v *! fold_left nmul c (V 1)).

(** Terms of the Hamiltonian as they are before spin factors: the components with their comp, for one pair of states, made of tables of
    the fragments (see [HamModel] for the same functions on arrays, without components). *)
Local Open Scope R_scope.
Definition sm (n : nat) (f : nat -> R) : R := fold_right Rplus 0 (map f (seq 0 n)).
(** cs=True: the sum and difference of both spins, frag.py:391-395 *)
Definition cs (d : nat -> nat -> nat -> R) (c p q : nat) : R := match c with O => d 0%nat p q + d 1%nat p q | _ => d 0%nat p q - d 1%nat p q end.
(** _crunch_1d_, ham: hams2ovlp.py:219-239 *)
Definition term_1d (n : nat) (h1 : nat -> nat -> nat -> R) (h2 : nat -> nat -> nat -> nat -> R) (d1 : nat -> nat -> nat -> R) (d2 : nat -> nat -> nat -> nat -> nat -> R) : list (R * list nat) :=
  let ham := sm 2 (fun s => sm n (fun p => sm n (fun q => d1 s q p * h1 s p q))) in
  let ham := ham + sm n (fun p => sm n (fun q => sm n (fun r => sm n (fun u => sm 4 (fun c => d2 c q p u r) * h2 p q r u)))) * (1 / 2) in
  [(ham, [])].
(** _crunch_2d_, ham: hams2ovlp.py:241-265.  h_jjii, h_jiij: blocks of h2; the fragments of the term are [i; j] *)
Definition term_2d (ni nj : nat) (h_jjii h_jiij : nat -> nat -> nat -> nat -> R) (d_i d_j : nat -> nat -> nat -> R) : list (R * list nat) :=
  let ham0 := sm nj (fun r => sm nj (fun u => cs d_j 0 r u * sm ni (fun p => sm ni (fun q => cs d_i 0 p q * h_jjii u r q p)))) in
  let ex := fun s => sm nj (fun r => sm nj (fun u => cs d_j s r u * sm ni (fun p => sm ni (fun q => cs d_i s p q * (h_jiij u p q r / 2))))) in
  [(ham0 - ex 0%nat, [0; 0]%nat); (0 - ex 1%nat, [1; 1]%nat)].
(** _crunch_1c_, ham: hams2ovlp.py:267-303; pph and phh are summed over the spin of the density; fragments [i; j] *)
Definition term_1c (ni nj : nat) (fac : R) (h1_ji : nat -> nat -> R) (h_jiii h_jjji : nat -> nat -> nat -> nat -> R) (p_i : nat -> R) (pph_i : nat -> nat -> nat -> nat -> R)
  (h_j : nat -> R) (phh_j : nat -> nat -> nat -> nat -> R) : list (R * list nat) :=
  let ham := sm nj (fun w => h_j w * sm ni (fun v => p_i v * h1_ji w v)) in
  let ham := ham + sm nj (fun w => h_j w * sm ni (fun a => sm ni (fun b => sm ni (fun c => sm 2 (fun k => pph_i k a b c) * h_jiii w a c b)))) in
  let ham := ham + sm nj (fun a => sm nj (fun b => sm nj (fun c => sm 2 (fun k => phh_j k a b c) * sm ni (fun v => p_i v * h_jjji b a c v)))) in
  [(ham * fac, [])].
(** _crunch_2c_, ham: hams2ovlp.py:404-492, for a pair of electrons of different spin that leaves fragment i = j for a = b; fragments [i; a] *)
Definition term_2c (ni na : nat) (h_iaia : nat -> nat -> nat -> nat -> R) (hh_i pp_a : nat -> nat -> R) : list (R * list nat) :=
  let h_j := fun w x y z => h_iaia w z x y in
  let h_k := fun w x y z => h_iaia w y x z in
  let dot := fun h : nat -> nat -> nat -> nat -> R => sm ni (fun w => sm ni (fun x => hh_i w x * sm na (fun y => sm na (fun z => pp_a y z * h w x y z)))) * (1 / 2) in
  [(dot (fun w x y z => h_j w x y z + h_k w x y z), [0; 0]%nat); (dot (fun w x y z => h_j w x y z - h_k w x y z), [1; 1]%nat)].
(** reduce_spin when multiplicities are not known adds up the components: opterm.py:86-90 *)
Definition reduce_spin_none (arr : list (R * list nat)) : R := fold_right Rplus 0 (map fst arr).
