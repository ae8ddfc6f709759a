(** Density matrices of the members of a spin multiplet from those of one member: fci/rdm_smult.py.

    Numbers are reals; a square root of a negative number and a division by zero (nan, inf or ZeroDivisionError) have no value.
    Arrays are functions of their indices, the leading axis of states is left out, and reshape does nothing to the rest. *)
From Coq Require Import List Bool Arith ZArith Reals.
Import ListNotations.
Local Open Scope R_scope.

(** numbers of numpy: [None] is nan, inf or an exception *)
Definition num := option R.
Definition V (x : R) : num := Some x.
Definition nmul (x y : num) : num := match x, y with Some a, Some b => Some (a * b) | _, _ => None end.
Definition nadd (x y : num) : num := match x, y with Some a, Some b => Some (a + b) | _, _ => None end.
Definition ndiv (x y : num) : num := match x, y with Some a, Some b => if Req_EM_T b 0 then None else Some (a / b) | _, _ => None end.
Definition sq (x : num) : num := match x with Some a => if Rlt_dec a 0 then None else Some (sqrt a) | None => None end.
Infix "*!" := nmul (at level 40, left associativity).
Infix "/!" := ndiv (at level 40, left associativity).
(** a sum of products *)
Definition lc (l : list (num * num)) : num := fold_right (fun p r => nadd (nmul (fst p) (snd p)) r) (V 0) l.

(** the projections 2m of bra and ket at which the density matrices are made, _get_highm_civecs: rdm_smult.py:12-28; the operator
    changes 2m by [dspin_op] *)
Definition high_ket (smult_bra smult_ket dspin_op : Z) : Z := Z.min (smult_ket - 1) (smult_bra - 1 - dspin_op).
Definition high_bra (smult_bra smult_ket dspin_op : Z) : Z := (high_ket smult_bra smult_ket dspin_op + dspin_op)%Z.
(** 2m of the operators: rdm_smult.py:66-67, 144-145, 221-222, 290-291 *)
Definition dspin_h (spin_op : nat) : Z := match spin_op with O => -1 | _ => 1 end.
Definition dspin_hh (spin_op : nat) : Z := match spin_op with O => -2 | 1%nat => 0 | _ => 2 end.
Definition dspin_sm : Z := -2.
Definition dspin_dm : Z := 0.

(** 2s and 2m are halved: rdm_smult.py:104-105, 183-184, 252-253, 323-324 *)
Definition half (z : Z) : R := IZR z / 2.

(** _scale_h: rdm_smult.py:70-79 *)
Definition t_scale_h (d2s_idx : Z) (spin_op : nat) (s m : R) : num :=
  match d2s_idx, spin_op with
  | 0%Z, 0%nat => V (1 / 2) *! sq (V 2) *! sq (V (- m + s)) *! sq (V (m + s)) *! sq (V (m + s - 1)) /! (sq (V (s - 1)) *! sq (V (2 * s - 1)))
  | 0%Z, 1%nat => V (1 / 2) *! sq (V (- m + s)) *! sq (V (m + s)) *! sq (V (- m + s - 1)) /! sq (V (s - 1))
  | 1%Z, 0%nat => V (1 / 2) *! sq (V (2 * m + 2 * s)) /! sq (V s)
  | 1%Z, 1%nat => sq (V (- m + s))
  | 2%Z, 0%nat => sq (V (- m + s + 1))
  | 2%Z, 1%nat => sq (V (m + s + 1)) /! sq (V (2 * s + 1))
  | 3%Z, 0%nat => V (1 / 2) *! sq (V 2) *! sq (V (- m + s + 1)) *! sq (V (- m + s + 2)) *! sq (V (m + s + 1)) /! sq (V (2 * s + 1))
  | 3%Z, 1%nat => V (1 / 2) *! sq (V 2) *! sq (V (- m + s + 1)) *! sq (V (m + s + 1)) *! sq (V (m + s + 2)) /! sq (V (2 * (s ^ 2) + 3 * s + 1))
  | _, _ => None
  end.
(** scale_h: rdm_smult.py:81-106 *)
Definition scale_h (smult_bra : Z) (spin_op : nat) (smult_ket spin_ket : Z) : num :=
  let d2s_idx := ((smult_bra - smult_ket + 3) / 2)%Z in
  if (d2s_idx <? 0)%Z || (4 <=? d2s_idx)%Z then V 0 else t_scale_h d2s_idx spin_op (half (smult_ket - 1)) (half spin_ket).
(** _scale_hh: rdm_smult.py:148-158 *)
Definition t_scale_hh (d2s_idx : Z) (spin_op : nat) (s m : R) : num :=
  match d2s_idx, spin_op with
  | 0%Z, 0%nat => V (1 / 2) *! sq (V 2) *! sq (V (m + s - 1) /! V (2 * s - 1)) *! sq (V (m + s)) /! sq (V s)
  | 0%Z, 1%nat => sq (V (- m + s) /! V (2 * s - 1)) *! sq (V (m + s)) /! (sq (V (2 * s - 1)) *! sq (V 1 /! V (2 * s - 1)))
  | 0%Z, 2%nat => V (1 / 2) *! sq (V 2) *! sq (V (- m + s - 1) /! V (2 * s - 1)) *! sq (V (- m + s)) /! sq (V 1 /! V (2 * s - 1))
  | 1%Z, 0%nat => V (1 / 2) *! sq (V 2) *! sq (V (m + s)) *! sq (V (- m + s + 1)) /! sq (V s)
  | 1%Z, 1%nat => V 1
  | 1%Z, 2%nat => V (1 / 2) *! sq (V 2) *! sq (V (- m + s)) *! sq (V (m + s + 1)) /! sq (V s)
  | 2%Z, 0%nat => V (1 / 2) *! sq (V 2) *! sq (V (- m + s + 1)) *! sq (V (- m + s + 2))
  | 2%Z, 1%nat => sq (V (- m + s + 1)) *! sq (V (m + s + 1)) *! sq (V (2 * (s ^ 2) + 3 * s + 1)) /! sq (V (4 * (s ^ 3) + 8 * (s ^ 2) + 5 * s + 1))
  | 2%Z, 2%nat => V (1 / 2) *! sq (V 2) *! sq (V (m + s + 1)) *! sq (V (m + s + 2)) /! sq (V (2 * (s ^ 2) + 3 * s + 1))
  | _, _ => None
  end.
(** scale_hh: rdm_smult.py:160-185 *)
Definition scale_hh (smult_bra : Z) (spin_op : nat) (smult_ket spin_ket : Z) : num :=
  let d2s_idx := ((smult_bra - smult_ket + 2) / 2)%Z in
  if (d2s_idx <? 0)%Z || (3 <=? d2s_idx)%Z then V 0 else t_scale_hh d2s_idx spin_op (half (smult_ket - 1)) (half spin_ket).
(** _scale_sm: rdm_smult.py:225-229 *)
Definition t_scale_sm (d2s_idx : Z) (s m : R) : num :=
  match d2s_idx with
  | 0%Z => V (1 / 2) *! sq (V 2) *! sq (V (m + s)) *! sq (V (m + s - 1)) /! (sq (V s) *! sq (V (2 * s - 1)))
  | 1%Z => V (1 / 2) *! sq (V 2) *! sq (V (m + s)) *! sq (V (- m + s + 1)) /! sq (V s)
  | 2%Z => V (1 / 2) *! sq (V 2) *! sq (V (- m + s + 1)) *! sq (V (- m + s + 2))
  | _ => None
  end.
(** scale_sm: rdm_smult.py:231-254 *)
Definition scale_sm (smult_bra smult_ket spin_ket : Z) : num :=
  let d2s_idx := ((smult_bra - smult_ket + 2) / 2)%Z in
  if (d2s_idx <? 0)%Z || (3 <=? d2s_idx)%Z then V 0 else t_scale_sm d2s_idx (half (smult_ket - 1)) (half spin_ket).
(** _scale_dm: rdm_smult.py:294-298 *)
Definition t_scale_dm (d2s_idx : Z) (s m : R) : num :=
  match d2s_idx with
  | 0%Z => V (1 / 2) *! sq (V (- m + s)) *! sq (V (m + s)) *! sq (V (- m + s - 1)) *! sq (V (m + s - 1)) /! sq (V (2 * (s ^ 2) - 5 * s + 3))
  | 1%Z => sq (V (- m + s)) *! sq (V (m + s)) /! sq (V (2 * s - 1))
  | 2%Z => V 1
  | _ => None
  end.
(** scale_dm; bra and ket are exchanged when the bra has the larger multiplicity: rdm_smult.py:300-325 *)
Definition scale_dm (smult_bra smult_ket spin_ket : Z) : num :=
  let '(b, k) := if (smult_ket <? smult_bra)%Z then (smult_ket, smult_bra) else (smult_bra, smult_ket) in
  let d2s_idx := ((b - k + 4) / 2)%Z in
  if (d2s_idx <? 0)%Z || (3 <=? d2s_idx)%Z then V 0 else t_scale_dm d2s_idx (half (k - 1)) (half spin_ket).

(** _transpose_mdown_phh_0: rdm_smult.py:370-382 *)
Definition tr_phh_0 (S2 M : Z) (x xT : nat -> num) (k : nat) : num :=
  let s := half S2 in let m := half M in
  if (M =? S2)%Z then
    match k with
    | 0%nat => lc [(V 1, x 0%nat)]
    | _ => lc [(V 1, x 1%nat)]
    end
  else
    match k with
    | 0%nat => lc [(V (m + s - 1) /! V (2 * s - 1), x 0%nat); (V (- m + s) /! V (2 * s - 1), x 1%nat); (V (m - s) /! V (2 * s - 1), xT 1%nat)]
    | _ => lc [(V (- m + s) /! V (2 * s - 1), x 0%nat); (V (m + s - 1) /! V (2 * s - 1), x 1%nat); (V (- m + s) /! V (2 * s - 1), xT 1%nat)]
    end.
(** _transpose_mdown_phh_1: rdm_smult.py:383-395 *)
Definition tr_phh_1 (S2 M : Z) (x xT : nat -> num) (k : nat) : num :=
  let s := half S2 in let m := half M in
  if (M =? S2 - 2)%Z then
    match k with
    | 0%nat => lc [(V 1, x 0%nat)]
    | _ => lc [(V 1, x 1%nat)]
    end
  else
    match k with
    | 0%nat => lc [(V (1 / 2 * (- m + s - 1)) /! V (2 * s - 1), x 1%nat); (V (1 / 2 * (- m + s - 1)) /! V (2 * s - 1), xT 0%nat); (V (1 / 2 * (m + 3 * s - 1)) /! V (2 * s - 1), x 0%nat)]
    | _ => lc [(V (1 / 2 * (m + 3 * s - 1)) /! V (2 * s - 1), x 1%nat); (V (1 / 2 * (m - s + 1)) /! V (2 * s - 1), xT 0%nat); (V (1 / 2 * (- m + s - 1)) /! V (2 * s - 1), x 0%nat)]
    end.
(** _transpose_mdown_phh_2: rdm_smult.py:396-408 *)
Definition tr_phh_2 (S2 M : Z) (x xT : nat -> num) (k : nat) : num :=
  let s := half S2 in let m := half M in
  if (M =? S2)%Z then
    match k with
    | 0%nat => lc [(V 1, x 0%nat)]
    | _ => lc [(V 1, x 1%nat)]
    end
  else
    match k with
    | 0%nat => lc [(V (1 / 4 * (m - s)) /! V s, xT 1%nat); (V (1 / 4 * (m + 3 * s)) /! V s, x 0%nat); (V (1 / 4 * (- m + s)) /! V s, x 1%nat)]
    | _ => lc [(V (1 / 4 * (- m + s)) /! V s, xT 1%nat); (V (1 / 4 * (- m + s)) /! V s, x 0%nat); (V (1 / 4 * (m + 3 * s)) /! V s, x 1%nat)]
    end.
(** _transpose_mdown_phh_3: rdm_smult.py:409-421 *)
Definition tr_phh_3 (S2 M : Z) (x xT : nat -> num) (k : nat) : num :=
  let s := half S2 in let m := half M in
  if (M =? S2)%Z then
    match k with
    | 0%nat => lc [(V 1, x 0%nat)]
    | _ => lc [(V 1, x 1%nat)]
    end
  else
    match k with
    | 0%nat => lc [(V (1 / 2 * (- m + s)) /! V s, xT 0%nat); (V (1 / 2 * (m + s)) /! V s, x 0%nat); (V (1 / 2 * (- m + s)) /! V s, x 1%nat)]
    | _ => lc [(V (1 / 2 * (m - s)) /! V s, xT 0%nat); (V (1 / 2 * (- m + s)) /! V s, x 0%nat); (V (1 / 2 * (m + s)) /! V s, x 1%nat)]
    end.
(** _transpose_mdown_hh_0: rdm_smult.py:468-475 *)
Definition tr_hh_0 (S2 M : Z) (x xT : nat -> num) (k : nat) : num :=
  let s := half S2 in let m := half M in
  if (M =? S2)%Z then
    lc [(V 1, x 0%nat)]
  else
    lc [(V (1 / 2 * (m + s)) /! V s, x 0%nat); (V (1 / 2 * (- m + s)) /! V s, xT 0%nat)].
(** _transpose_mdown_dm1_0: rdm_smult.py:560-573 *)
Definition tr_dm1_0 (S2 M : Z) (x xT : nat -> num) (k : nat) : num :=
  let s := half S2 in let m := half M in
  if (M =? S2)%Z then
    match k with
    | 0%nat => lc [(V 1, x 0%nat)]
    | _ => lc [(V 1, x 1%nat)]
    end
  else
  if (M =? - S2)%Z then
    match k with
    | 0%nat => lc [(V 1, x 1%nat)]
    | _ => lc [(V 1, x 0%nat)]
    end
  else
    match k with
    | 0%nat => lc [(V (1 / 2 * (m + s)) /! V s, x 0%nat); (V (1 / 2 * (- m + s)) /! V s, x 1%nat)]
    | _ => lc [(V (1 / 2 * (- m + s)) /! V s, x 0%nat); (V (1 / 2 * (m + s)) /! V s, x 1%nat)]
    end.
(** _transpose_mdown_dm2_0: rdm_smult.py:615-642 *)
Definition tr_dm2_0 (S2 M : Z) (x xT : nat -> num) (k : nat) : num :=
  let s := half S2 in let m := half M in
  if (M =? S2 - 2)%Z then
    match k with
    | 0%nat => lc [(V 1, x 0%nat)]
    | 1%nat => lc [(V 1, x 1%nat)]
    | 2%nat => lc [(V 1, x 2%nat)]
    | _ => lc [(V 1, x 3%nat)]
    end
  else
  if (M =? 2 - S2)%Z then
    match k with
    | 0%nat => lc [(V (- 1), x 3%nat)]
    | 1%nat => lc [(V 1, x 3%nat); (V 1, x 0%nat); (V 1, x 1%nat)]
    | 2%nat => lc [(V (- 1), xT 3%nat); (V (- 1), xT 0%nat); (V 1, x 2%nat)]
    | _ => lc [(V (- 1), x 0%nat)]
    end
  else
    match k with
    | 0%nat => lc [(V (1 / 2 * (m - s + 1)) /! V (s - 1), x 3%nat); (V (1 / 2 * (m + s - 1)) /! V (s - 1), x 0%nat)]
    | 1%nat => lc [(V (1 / 2 * (- m + s - 1)) /! V (s - 1), x 3%nat); (V (1 / 2 * (- m + s - 1)) /! V (s - 1), x 0%nat); (V 1, x 1%nat)]
    | 2%nat => lc [(V (- 1 / 2 * (- m + s - 1)) /! V (s - 1), xT 3%nat); (V (- 1 / 2 * (- m + s - 1)) /! V (s - 1), xT 0%nat); (V 1, x 2%nat)]
    | _ => lc [(V (1 / 2 * (m + s - 1)) /! V (s - 1), x 3%nat); (V (1 / 2 * (m - s + 1)) /! V (s - 1), x 0%nat)]
    end.
(** _transpose_mdown_dm2_1: rdm_smult.py:643-680 *)
Definition tr_dm2_1 (S2 M : Z) (x xT : nat -> num) (k : nat) : num :=
  let s := half S2 in let m := half M in
  if (M =? S2)%Z then
    match k with
    | 0%nat => lc [(V 1, x 0%nat)]
    | 1%nat => lc [(V 1, x 1%nat)]
    | 2%nat => lc [(V 1, x 2%nat)]
    | _ => lc [(V 1, x 3%nat)]
    end
  else
  if (M =? - S2)%Z then
    match k with
    | 0%nat => lc [(V 1, x 3%nat)]
    | 1%nat => lc [(V 1, x 2%nat)]
    | 2%nat => lc [(V 1, x 1%nat)]
    | _ => lc [(V 1, x 0%nat)]
    end
  else
    match k with
    | 0%nat => lc [(V (1 / 2 * (- m ^ 2 + s ^ 2)) /! V (s * (2 * s - 1)), x 1%nat); (V (1 / 2 * (m ^ 2 - s ^ 2)) /! V (s * (2 * s - 1)), xT 2%nat); (V (1 / 2 * (m ^ 2 + 2 * m * s - m + s ^ 2 - s)) /! V (s * (2 * s - 1)), x 0%nat); (V (1 / 2 * (- m ^ 2 + s ^ 2)) /! V (s * (2 * s - 1)), x 2%nat); (V (1 / 2 * (m ^ 2 - 2 * m * s + m + s ^ 2 - s)) /! V (s * (2 * s - 1)), x 3%nat); (V (1 / 2 * (m ^ 2 - s ^ 2)) /! V (s * (2 * s - 1)), xT 1%nat)]
    | 1%nat => lc [(V (1 / 2 * (m ^ 2 + 2 * m * s - m + s ^ 2 - s)) /! V (s * (2 * s - 1)), x 1%nat); (V (1 / 2 * (- m ^ 2 + s ^ 2)) /! V (s * (2 * s - 1)), xT 2%nat); (V (1 / 2 * (- m ^ 2 + s ^ 2)) /! V (s * (2 * s - 1)), x 0%nat); (V (1 / 2 * (m ^ 2 - 2 * m * s + m + s ^ 2 - s)) /! V (s * (2 * s - 1)), x 2%nat); (V (1 / 2 * (- m ^ 2 + s ^ 2)) /! V (s * (2 * s - 1)), x 3%nat); (V (1 / 2 * (- m ^ 2 + s ^ 2)) /! V (s * (2 * s - 1)), xT 1%nat)]
    | 2%nat => lc [(V (1 / 2 * (m ^ 2 + 2 * m * s - m + s ^ 2 - s)) /! V (s * (2 * s - 1)), x 2%nat); (V (1 / 2 * (- m ^ 2 + s ^ 2)) /! V (s * (2 * s - 1)), xT 1%nat); (V (- 1 / 2 * (- m ^ 2 + s ^ 2)) /! V (s * (2 * s - 1)), xT 0%nat); (V (1 / 2 * (m ^ 2 - 2 * m * s + m + s ^ 2 - s)) /! V (s * (2 * s - 1)), x 1%nat); (V (- 1 / 2 * (- m ^ 2 + s ^ 2)) /! V (s * (2 * s - 1)), xT 3%nat); (V (1 / 2 * (- m ^ 2 + s ^ 2)) /! V (s * (2 * s - 1)), xT 2%nat)]
    | _ => lc [(V (1 / 2 * (- m ^ 2 + s ^ 2)) /! V (s * (2 * s - 1)), x 1%nat); (V (1 / 2 * (m ^ 2 - s ^ 2)) /! V (s * (2 * s - 1)), xT 2%nat); (V (1 / 2 * (m ^ 2 - 2 * m * s + m + s ^ 2 - s)) /! V (s * (2 * s - 1)), x 0%nat); (V (1 / 2 * (- m ^ 2 + s ^ 2)) /! V (s * (2 * s - 1)), x 2%nat); (V (1 / 2 * (m ^ 2 + 2 * m * s - m + s ^ 2 - s)) /! V (s * (2 * s - 1)), x 3%nat); (V (1 / 2 * (m ^ 2 - s ^ 2)) /! V (s * (2 * s - 1)), xT 1%nat)]
    end.

(** round (m, 1) == round (s, 1) compares multiples of 1/2, hence the integers 2m and 2s above.  [x k] is dm_0[:,k] at the index
    that is asked for, [xT k] is dm_0[:,k] with the first and the last orbital (phh), the two orbitals (hh), or the second and the last
    orbital (dm2) exchanged. *)

(** mdown_h: rdm_smult.py:327-368 *)
Definition mdown_h (dm_0 : nat -> R) (smult_bra : Z) (spin_op : nat) (smult_ket spin_ket : Z) (p : nat) : num :=
  V (dm_0 p) *! scale_h smult_bra spin_op smult_ket spin_ket.
(** mdown_phh: rdm_smult.py:423-466 *)
Definition mdown_phh (dm_0 : nat -> nat -> nat -> nat -> R) (smult_bra : Z) (spin_op : nat) (smult_ket spin_ket : Z) (k r p q : nat) : num :=
  let dm_1 k r p q := V (dm_0 k r p q) *! scale_h smult_bra spin_op smult_ket spin_ket in
  let x k := dm_1 k r p q in let xT k := dm_1 k q p r in
  match (smult_bra - smult_ket)%Z, spin_op with
  | (-1)%Z, 0%nat => tr_phh_0 (smult_ket - 1) spin_ket x xT k
  | (-1)%Z, 1%nat => tr_phh_1 (smult_ket - 1) spin_ket x xT k
  | 1%Z, 0%nat => tr_phh_2 (smult_ket - 1) spin_ket x xT k
  | 1%Z, 1%nat => tr_phh_3 (smult_ket - 1) spin_ket x xT k
  | _, _ => x k
  end.
(** mdown_hh: rdm_smult.py:476-517 *)
Definition mdown_hh (dm_0 : nat -> nat -> R) (smult_bra : Z) (spin_op : nat) (smult_ket spin_ket : Z) (p q : nat) : num :=
  let dm_1 p q := V (dm_0 p q) *! scale_hh smult_bra spin_op smult_ket spin_ket in
  match (smult_bra - smult_ket)%Z, spin_op with
  | 0%Z, 1%nat => tr_hh_0 (smult_ket - 1) spin_ket (fun _ => dm_1 p q) (fun _ => dm_1 q p) 0%nat
  | _, _ => dm_1 p q
  end.
(** mdown_sm: rdm_smult.py:519-558 *)
Definition mdown_sm (dm_0 : nat -> nat -> R) (smult_bra smult_ket spin_ket : Z) (p q : nat) : num :=
  V (dm_0 p q) *! scale_sm smult_bra smult_ket spin_ket.
(** mdown_dm1: rdm_smult.py:574-613 *)
Definition mdown_dm1 (dm_0 : nat -> nat -> nat -> R) (smult_bra smult_ket spin_ket : Z) (k p q : nat) : num :=
  let dm_1 k := V (dm_0 k p q) *! scale_dm smult_bra smult_ket spin_ket in
  match (- Z.abs (smult_bra - smult_ket))%Z with
  | 0%Z => tr_dm1_0 (Z.max smult_bra smult_ket - 1) spin_ket dm_1 dm_1 k
  | _ => dm_1 k
  end.
(** mdown_dm2: rdm_smult.py:681-722 *)
Definition mdown_dm2 (dm_0 : nat -> nat -> nat -> nat -> nat -> R) (smult_bra smult_ket spin_ket : Z) (k p q r s : nat) : num :=
  let dm_1 k p q r s := V (dm_0 k p q r s) *! scale_dm smult_bra smult_ket spin_ket in
  let x k := dm_1 k p q r s in let xT k := dm_1 k p s r q in
  match (- Z.abs (smult_bra - smult_ket))%Z with
  | (-2)%Z => tr_dm2_0 (Z.max smult_bra smult_ket - 1) spin_ket x xT k
  | 0%Z => tr_dm2_1 (Z.max smult_bra smult_ket - 1) spin_ket x xT k
  | _ => x k
  end.
