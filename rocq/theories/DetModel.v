(** Determinant strings and CI-vector layout: my_pyscf/fci/dummy.py and my_pyscf/lassi/op_o0.py.

    A determinant string is the list of its occupation bits, orbital 0 first.  [num_strings], [strs]
    and [addr] model pyscf.fci.cistring (not part of /repo): strings are listed by increasing integer
    value.  64-bit overflow of the integer form of a string is not modelled.

    CI vectors are functions of their addresses over an arbitrary commutative ring [K]; the array
    extents are those computed by the code.  A wrong input size (ValueError of reshape) is not
    modelled. *)
From Coq Require Import List Arith Bool.
From Verif Require Import Base Star SignsModel.
Import ListNotations.
Local Open Scope nat_scope.

Notation det := (list bool).

(** cistring.num_strings: binomial coefficient *)
Fixpoint num_strings (norb k : nat) : nat :=
  match norb, k with
  | _, 0 => 1
  | 0, S _ => 0
  | S m, S k' => num_strings m k + num_strings m k'
  end.

(** cistring.make_strings (range norb) k, in the order of the addresses *)
Fixpoint strs (norb k : nat) : list det :=
  match norb with
  | 0 => match k with 0 => [[]] | S _ => [] end
  | S m => map (fun s => s ++ [false]) (strs m k)
           ++ match k with 0 => [] | S k' => map (fun s => s ++ [true]) (strs m k') end
  end.

(** cistring.strs2addr: scan from the highest orbital down *)
Fixpoint addr (norb k : nat) (s : det) : nat :=
  match norb with
  | 0 => 0
  | S m => if nth m s false then num_strings m k + addr m (k - 1) s else addr m k s
  end.

(** number of electrons of a string *)
Fixpoint count (s : det) : nat :=
  match s with [] => 0 | b :: r => (if b then 1 else 0) + count r end.

(** *** fci/dummy.py *)

Record params := mkParams { p_ia : nat; p_ja : nat; p_ib : nat; p_jb : nat; p_neg : bool; p_na1 : nat; p_nb1 : nat }.

Definition b2n (b : bool) : nat := if b then 1 else 0.

(** dummy_orbital_params: dummy.py:30-43, the same lines as add_orbital:8-16 and read_orbital:48-56.
    [p_neg]: sgn = -1. *)
Definition dummy_orbital_params (norb : nat) (nelec : nat * nat) (occ_a occ_b : bool) : params :=
  let neleca := fst nelec in let nelecb := snd nelec in
  let ndeta0 := num_strings norb neleca in
  let ndetb0 := num_strings norb nelecb in
  let ndeta1 := num_strings (norb + 1) (neleca + b2n occ_a) in
  let ndetb1 := num_strings (norb + 1) (nelecb + b2n occ_b) in
  let a := if occ_a then (ndeta1 - ndeta0, ndeta1) else (0, ndeta0) in
  let b := if occ_b then (ndetb1 - ndetb0, ndetb1) else (0, ndetb0) in
  mkParams (fst a) (snd a) (fst b) (snd b) (Nat.eqb (b2n occ_b * (neleca mod 2)) 1) ndeta1 ndetb1.

Section Vec.
Context {K : star_ring}.
Definition sgn_mul (neg : bool) (x : K) : K := if neg then sopp x else x.
Definition mat := nat -> nat -> K.

(** ci1 = zeros; ci1[ia:ja,ib:jb] = sgn * ci0.  dummy.py:20-21 *)
Definition add_one (p : params) (c : mat) : mat := fun a b =>
  if (p_ia p <=? a) && (a <? p_ja p) && (p_ib p <=? b) && (b <? p_jb p)
  then sgn_mul (p_neg p) (c (a - p_ia p) (b - p_ib p)) else s0.

(** ci0 = sgn * ci1[ia:ja,ib:jb].  dummy.py:60-61 *)
Definition read_one (p : params) (c : mat) : mat := fun a b =>
  sgn_mul (p_neg p) (c (p_ia p + a) (p_ib p + b)).

(** The container in which CI vectors are passed: one matrix, a three-index array, a list or a tuple *)
Inductive civ : Type :=
| Mat (m : mat)
| Arr3 (l : list mat)
| PyList (l : list mat)
| PyTuple (l : list mat).

Definition mats (c : civ) : list mat :=
  match c with Mat m => [m] | Arr3 l | PyList l | PyTuple l => l end.

(** dummy.py:22-28 and 62-68 *)
Definition repack (c : civ) (l : list mat) : civ :=
  match l with
  | [m] => Mat m
  | _ => match c with PyList _ => PyList l | PyTuple _ => PyTuple l | _ => Arr3 l end
  end.

Definition add_orbital (ci0 : civ) (norb : nat) (nelec : nat * nat) (occ_a occ_b : bool) : civ :=
  repack ci0 (map (add_one (dummy_orbital_params norb nelec occ_a occ_b)) (mats ci0)).
Definition read_orbital (ci1 : civ) (norb : nat) (nelec : nat * nat) (occ_a occ_b : bool) : civ :=
  repack ci1 (map (read_one (dummy_orbital_params norb nelec occ_a occ_b)) (mats ci1)).

(** *** lassi/op_o0.py: spinless representation *)

(** ci[addrs] = vals over a zero vector *)
Definition scatter (addrs : list nat) (vals : nat -> K) : nat -> K := fun x =>
  match index_of x addrs with Some i => vals i | None => s0 end.

(** op_o0.py:103-110.  Integer addition of a string and a shifted string is concatenation of bits. *)
Definition spinless_addrs (norb nelec : nat) (ne : nat * nat) : list nat :=
  map (addr (2 * norb) nelec)
    (flat_map (fun sa => map (fun sb => sa ++ sb) (strs norb (snd ne))) (strs norb (fst ne))).

(** op_o0.py:96-99 *)
Definition common_nelec (nelec_r : list (nat * nat)) : res nat :=
  match map (fun ne => fst ne + snd ne) nelec_r with
  | [] => Raise IndexError
  | n :: r => if forallb (Nat.eqb n) r then Ok n else Raise NotImplementedError
  end.

Definition odd_spins (ne : nat * nat) : bool := Nat.eqb ((fst ne * snd ne) mod 2) 1.

(** ss2spinless: op_o0.py:114-129 (the trailing length-1 axis is dropped) *)
Definition ss2spinless (norb nelec : nat) (ne : nat * nat) (ci0 : mat) : nat -> K := fun x =>
  sgn_mul (odd_spins ne)
    (scatter (spinless_addrs norb nelec ne)
       (fun i => let nb := num_strings norb (snd ne) in ci0 (i / nb) (i mod nb)) x).

(** spinless2ss: op_o0.py:130-136.  An address out of range cannot occur for the shape used. *)
Definition spinless2ss (norb nelec : nat) (ne : nat * nat) (ci2 : nat -> K) : mat := fun a b =>
  sgn_mul (odd_spins ne) (ci2 (nth (a * num_strings norb (snd ne) + b) (spinless_addrs norb nelec ne) 0)).

End Vec.
Arguments mat : clear implicits.
Arguments civ : clear implicits.

(** *** lassi/op_o0.py: products of fragment vectors *)

(** number of electrons of [s] in orbitals lo, lo+1, ..., lo+n-1 *)
Definition count_in (lo n : nat) (s : det) : nat := count (firstn n (skipn lo s)).

(** cistring.sub_addrs with sub_nelec > 0 (the only way addr_outer_product calls it) *)
Definition sub_addrs (norb nelec lo n sub : nat) : list nat :=
  map (addr norb nelec) (filter (fun s => Nat.eqb (count_in lo n s) sub) (strs norb nelec)).

(** np.intersect1d: the sorted common values *)
Definition intersect1d (a b : list nat) : list nat :=
  filter (fun x => existsb (Nat.eqb x) a && existsb (Nat.eqb x) b) (seq 0 (S (list_max a))).

(** addr_outer_product: op_o0.py:172-188 *)
Fixpoint outer_loop (norb nelec lo : nat) (fs : list (nat * nat)) (addrs : list nat) : list nat :=
  match fs with
  | [] => addrs
  | (n, e) :: r =>
      let new := if Nat.eqb e 0 then [] else sub_addrs norb nelec lo n e in
      let addrs' := match addrs with
                    | [] => new
                    | _ => match new with [] => addrs | _ => intersect1d addrs new end
                    end in
      outer_loop norb nelec (lo + n) r addrs'
  end.

Definition addr_outer_product (norb_f nelec_f : list nat) : list nat :=
  match outer_loop (sumN norb_f) (sumN nelec_f) 0 (combine norb_f nelec_f) [] with
  | [] => [0]
  | l => l
  end.

(** A fragment: lroots, norb, neleca, nelecb and its CI vectors *)
Record frag (K : star_ring) := mkFrag
  { f_l : nat; f_norb : nat; f_na : nat; f_nb : nat; f_ci : nat -> nat -> nat -> K }.
Arguments mkFrag {K}. Arguments f_l {K}. Arguments f_norb {K}. Arguments f_na {K}.
Arguments f_nb {K}. Arguments f_ci {K}.

Section Prod.
Context {K : star_ring}.

(** shape_f: op_o0.py:196-199 *)
Definition f_da (f : frag K) : nat := num_strings (f_norb f) (f_na f).
Definition f_db (f : frag K) : nat := num_strings (f_norb f) (f_nb f).

(** np.multiply.outer(...).transpose(0,3,1,4,2,5).reshape(...): op_o0.py:211-215 *)
Definition dp_step (dp : nat -> nat -> nat -> K) (f : frag K) : nat -> nat -> nat -> K := fun l a b =>
  smul (dp (l / f_l f) (a / f_da f) (b / f_db f)) (f_ci f (l mod f_l f) (a mod f_da f) (b mod f_db f)).

(** op_o0.py:209-215: start from the last fragment, continue with ci_f[-2::-1] *)
Definition ci_dp (fs : list (frag K)) : res (nat -> nat -> nat -> K) :=
  match rev fs with
  | [] => Raise IndexError
  | last :: others => Ok (fold_left dp_step others (f_ci last))
  end.

Definition addrs_a (fs : list (frag K)) := addr_outer_product (map f_norb fs) (map f_na fs).
Definition addrs_b (fs : list (frag K)) := addr_outer_product (map f_norb fs) (map f_nb fs).

(** gen_ci_dp: op_o0.py:218-235; the vectors it yields, one per product state *)
Definition ci_outer_product (fs : list (frag K)) : res (nat -> mat K) :=
  do dp <- ci_dp fs ;;
  Ok (fun l a b => match index_of a (addrs_a fs), index_of b (addrs_b fs) with
                   | Some i, Some j => dp l i j
                   | _, _ => s0
                   end).

(** dotter with skip=None: op_o0.py:236-239 *)
Definition dotter (fs : list (frag K)) (c1 : mat K) (nelec1 : nat * nat) : res (nat -> K) :=
  do dp <- ci_dp fs ;;
  if Nat.eqb (fst nelec1) (sumN (map f_na fs)) && Nat.eqb (snd nelec1) (sumN (map f_nb fs))
  then Ok (fun l => bsum (seq 0 (length (addrs_a fs))) (fun i =>
                    bsum (seq 0 (length (addrs_b fs))) (fun j =>
                    smul (dp l i j) (c1 (nth i (addrs_a fs) 0) (nth j (addrs_b fs) 0)))))
  else Ok (fun _ => s0).
End Prod.
