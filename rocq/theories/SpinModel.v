(** Spin utilities: util/chemistry.py:3-47 (yamaguchi), my_pyscf/fci/spin_op.py:12-20 and 91-149 (ladder normalisation,
    mdown, mup), lassi/basis.py:736-760 (get_spincoup_bases). *)
From Coq Require Import List ZArith QArith Bool.
From Verif Require Import Base SpacesModel.
Import ListNotations.
Local Open Scope Z_scope.

(** *** yamaguchi.  A state is its energy and <S^2> rounded to two decimals, in hundredths; rational instead of
    floating-point energies; the result is in the unit of the energies (no conversion to cm-1). *)
Fixpoint insert_e (x : Q * Z) (l : list (Q * Z)) : list (Q * Z) :=
  match l with [] => [x] | y :: l' => if Qle_bool (fst x) (fst y) then x :: l else y :: insert_e x l' end.
Definition sort_e (l : list (Q * Z)) : list (Q * Z) := fold_right insert_e [] l.
Definition hundredths_s2 (smult : Z) : Z := 25 * (smult * smult - 1).
Definition yamaguchi (states : list (Q * Z)) (highsmult : option Z) : res Q :=
  bind (match highsmult with
        | Some m => Ok (hundredths_s2 m)
        | None => match states with [] => Raise ValueError | x :: l => Ok (fold_left Z.max (map snd l) (snd x)) end
        end) (fun highs2 =>
  (* highs2 - np.floor (highs2) *)
  let lows2 := highs2 - (highs2 / 100) * 100 in
  let l := sort_e states in
  match find (fun x => snd x =? highs2) l with
  | None => Raise AssertionError
  | Some hs => match find (fun x => snd x =? lows2) l with
               | None => Raise AssertionError
               | Some ls => Ok ((fst ls - fst hs) / 24)%Q
               end
  end).

(** *** Squared norms times four: my_pyscf/fci/spin_op.py:12-20 *)
Definition sdown4 (smult na nb : Z) : Z := let s2 := smult - 1 in let m2 := na - nb in (s2 - m2 + 2) * (s2 + m2).
Definition sup4 (smult na nb : Z) : Z := let s2 := smult - 1 in let m2 := na - nb in (s2 - m2) * (s2 + m2 + 2).
Section Ladder.
  Variable V : Type.
  (** contract_sdown and contract_sup for a vector with the given electrons; [divn x] divides by the square root of x / 4 *)
  Variables (sdown sup : Z * Z -> V -> V) (divn : Z -> V -> V).
  Definition nsteps (smult na nb : Z) : nat := Z.to_nat (((smult - 1) - (na - nb)) / 2).
  (** mdown: my_pyscf/fci/spin_op.py:113-119, one vector *)
  Definition mdown (smult na nb : Z) (v : V) : V :=
    fold_left (fun v j => divn (sdown4 smult (na + j) (nb - j)) (sdown (na + j, nb - j) v))
      (map Z.of_nat (rev (seq 1 (nsteps smult na nb)))) v.
  (** mup: my_pyscf/fci/spin_op.py:143-149 *)
  Definition mup (smult na nb : Z) (v : V) : V :=
    fold_left (fun v j => divn (sup4 smult (na + j) (nb - j)) (sup (na + j, nb - j) v))
      (map Z.of_nat (seq 0 (nsteps smult na nb))) v.
End Ladder.

(** *** get_spincoup_bases *)
(** lines 748-752; [acc] is the part of spins_f already treated *)
Fixpoint lower_spins (acc : list Z) (smults spins : list Z) (spin_lsf : Z) : res (list Z) :=
  match smults, spins with
  | sm :: smults, m :: spins =>
      let dspin := Z.min (sumZ acc + (m + sumZ spins) - spin_lsf) (2 * (sm - 1)) in
      py_assert (0 <=? dspin) (lower_spins (acc ++ [m - (dspin / 2) * 2]) smults spins spin_lsf)
  | _, _ => Ok acc
  end.
Definition get_spincoup_bases (smults : list Z) (spin_lsf smult_lsf : option Z) : res (list (list Z) * list (list Z)) :=
  let spins := map (fun sm => sm - 1) smults in
  let '(spin, smult) :=
    match spin_lsf, smult_lsf with
    | None, None => (sumZ spins, sumZ spins + 1)
    | None, Some s => (s - 1, s)
    | Some m, None => (m, m + 1)
    | Some m, Some s => (m, s)
    end in
  bind (lower_spins [] smults spins spin) (fun spins' =>
  py_assert (sumZ spins' =? spin)
  (py_assert (forallb (fun p => Z.abs (fst p) <? snd p) (combine spins' smults))
  (py_assert (forallb (fun p => (fst p) mod 2 =? (snd p - 1) mod 2) (combine spins' smults))
  (bind (make_spin_shuffle_table smults spins') (fun spins_table =>
   bind (make_smult_shuffle_table smults smult) (fun smult_table => Ok (spins_table, smult_table))))))).
