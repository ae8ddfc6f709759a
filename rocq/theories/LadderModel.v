(** The spin ladder operators on CI arrays and the walk through a multiplet: my_pyscf/fci/spin_op.py:12-149.

    CI arrays are real and arithmetic is exact.  The pyscf functions used (cistring, lib.take_2d, lib.takebak_2d; not part of /repo)
    are modelled by what they return.  A division of an array by zero (inf and nan with a warning) is ZeroDivisionError, the square
    root of a negative number (nan with a warning) ValueError. *)
From Coq Require Import List Bool Arith ZArith Reals.
From Verif Require Import Base DetModel.
Import ListNotations.
Local Open Scope nat_scope.

(** a two-dimensional array: the lengths of the axes and the elements *)
Record arr2 := mkA { a_r : nat; a_c : nat; a_el : nat -> nat -> R }.
(** fcivec.reshape (r, c) of a C-contiguous array *)
Definition reshape2 (r c : nat) (x : arr2) : res arr2 :=
  if r * c =? a_r x * a_c x then Ok (mkA r c (fun i j => let k := i * c + j in a_el x (k / a_c x) (k mod a_c x))) else Raise ValueError.

(** *** cistring *)
(** electrons in orbitals above i *)
Definition n_above (s : det) (i : nat) : nat := count (skipn (S i) s).
Definition sgnZ (n : nat) : Z := if Nat.odd n then (-1)%Z else 1%Z.
Definition occ (s : det) (i : nat) : bool := nth i s false.
Definition put (i : nat) (b : bool) (s : det) : det := upd i (fun _ => b) s.
(** gen_des_str_index (range (norb), k): for every string a table with the rows (0, orbital, address of the string without it, sign) *)
Definition gen_des_str_index (n k : nat) : list (list (nat * nat * nat * Z)) :=
  map (fun s => map (fun i => (0, i, addr n (k - 1) (put i false s), sgnZ (n_above s i))) (filter (occ s) (seq 0 n))) (strs n k).
(** gen_cre_str_index (range (norb), k): rows (orbital, 0, address of the string with it, sign) *)
Definition gen_cre_str_index (n k : nat) : list (list (nat * nat * nat * Z)) :=
  map (fun s => map (fun i => (i, 0, addr n (k + 1) (put i true s), sgnZ (n_above s i))) (filter (fun i => negb (occ s i)) (seq 0 n))) (strs n k).
(** gen_map: spin_op.py:38-47; zero where a table has no row for the orbital *)
Definition gen_map (index : list (list (nat * nat * nat * Z))) (des : bool) (k i : nat) : nat * Z :=
  fold_left (fun v row => let '(o0, o1, ad, sg) := row in if i =? (if des then o1 else o0) then (ad, sg) else v) (nth k index []) (0, 0%Z).

(** lib.takebak_2d: out[idx[k],idy[l]] += a[k,l]; [pts] are the pairs of an index k and of idx[k] *)
Definition add_at (x y : nat) (v : R) (o : nat -> nat -> R) : nat -> nat -> R :=
  fun i j => if (i =? x) && (j =? y) then (o i j + v)%R else o i j.
Definition takebak_2d (o : nat -> nat -> R) (a : nat -> nat -> R) (idx idy : list (nat * nat)) : nat -> nat -> R :=
  fold_left (fun o p => fold_left (fun o q => add_at (snd p) (snd q) (a (fst p) (fst q)) o) idy o) idx o.

(** contract_sladder: spin_op.py:22-71; [raise] is op == 1.  Electron numbers are natural, the norm of line 27 is not used. *)
Definition contract_sladder (fcivec : arr2) (norb : nat) (nelec : nat * nat) (raise : bool) : res arr2 :=
  let '(neleca, nelecb) := nelec in
  do ci0 <- reshape2 (num_strings norb neleca) (num_strings norb nelecb) fcivec ;;
  if (if raise then (neleca =? norb) || (nelecb =? 0) else (neleca =? 0) || (nelecb =? norb)) then Ok (mkA 0 0 (fun _ _ => 0%R)) else
  let aindex := if raise then gen_map (gen_cre_str_index norb neleca) false else gen_map (gen_des_str_index norb neleca) true in
  let bindex := if raise then gen_map (gen_des_str_index norb nelecb) true else gen_map (gen_cre_str_index norb nelecb) false in
  let na1 := if raise then neleca + 1 else neleca - 1 in
  let nb1 := if raise then nelecb - 1 else nelecb + 1 in
  let nspin_comm := if raise then neleca else neleca - 1 in
  let step (ci1 : nat -> nat -> R) (i : nat) :=
    let maska := filter (fun k => negb (snd (aindex k i) =? 0)%Z) (seq 0 (num_strings norb neleca)) in
    let maskb := filter (fun k => negb (snd (bindex k i) =? 0)%Z) (seq 0 (num_strings norb nelecb)) in
    takebak_2d ci1 (fun k l => a_el ci0 k l * IZR (snd (aindex k i)) * IZR (snd (bindex l i)) * IZR (sgnZ nspin_comm))%R
      (map (fun k => (k, fst (aindex k i))) maska) (map (fun k => (k, fst (bindex k i))) maskb) in
  Ok (mkA (num_strings norb na1) (num_strings norb nb1) (fold_left step (seq 0 norb) (fun _ _ => 0%R))).

(** norm_sdown, norm_sup: spin_op.py:12-20, and the division of an array *)
Definition half_sqrt (x : Z) : res R := if (x <? 0)%Z then Raise ValueError else Ok (sqrt (IZR x / 4)).
Definition norm_sdown (smult : Z) (nelec : nat * nat) : res R :=
  let s2 := (smult - 1)%Z in let m2 := (Z.of_nat (fst nelec) - Z.of_nat (snd nelec))%Z in half_sqrt ((s2 - m2 + 2) * (s2 + m2)).
Definition norm_sup (smult : Z) (nelec : nat * nat) : res R :=
  let s2 := (smult - 1)%Z in let m2 := (Z.of_nat (fst nelec) - Z.of_nat (snd nelec))%Z in half_sqrt ((s2 - m2) * (s2 + m2 + 2)).
Definition div2 (x : arr2) (y : R) : res arr2 := if Req_EM_T y 0 then Raise ZeroDivisionError else Ok (mkA (a_r x) (a_c x) (fun i j => a_el x i j / y)%R).

(** _unpack_nelec of (neleca + j, nelecb - j): pyscf.fci.addons; a negative number of electrons fails in cistring *)
Definition shifted (nelec : nat * nat) (j : nat) : res (nat * nat) :=
  if j <=? snd nelec then Ok (fst nelec + j, snd nelec - j) else Raise ValueError.
Definition n_steps (smult : Z) (nelec : nat * nat) : nat := Z.to_nat (((smult - 1) - (Z.of_nat (fst nelec) - Z.of_nat (snd nelec))) / 2).
Fixpoint foldR {A} (f : A -> nat -> res A) (l : list nat) (x : A) : res A :=
  match l with [] => Ok x | j :: r => do y <- f x j ;; foldR f r y end.
(** one vector of mdown: spin_op.py:116-118, and of mup: 146-148 *)
Definition mdown1 (norb : nat) (nelec : nat * nat) (smult : Z) (ci : arr2) : res arr2 :=
  foldR (fun ci j => do ne <- shifted nelec j ;; do c <- contract_sladder ci norb ne false ;; do x <- norm_sdown smult ne ;; div2 c x)
    (rev (seq 1 (n_steps smult nelec))) ci.
Definition mup1 (norb : nat) (nelec : nat * nat) (smult : Z) (ci : arr2) : res arr2 :=
  foldR (fun ci j => do ne <- shifted nelec j ;; do c <- contract_sladder ci norb ne true ;; do x <- norm_sup smult ne ;; div2 c x)
    (seq 0 (n_steps smult nelec)) ci.
(** as_list, like_ci0: spin_op.py:76-88; the argument is one array or several *)
Inductive cis := One (c : arr2) | Many (l : list arr2).
Definition as_list (c : cis) : list arr2 := match c with One a => [a] | Many l => l end.
(** np.stack: at least one array, and all of one shape *)
Definition stackable (l : list arr2) : bool :=
  match l with [] => false | a :: r => forallb (fun b => (a_r b =? a_r a) && (a_c b =? a_c a)) r end.
Definition like_ci0 (l : list arr2) (c : cis) : res cis :=
  match c with
  | One _ => match l with a :: _ => Ok (One a) | [] => Raise IndexError end
  | Many _ => if stackable l then Ok (Many l) else Raise ValueError
  end.
(** mdown: spin_op.py:90-119; mup: 121-149 *)
Definition mdown (ci0 : cis) (norb : nat) (nelec : nat * nat) (smult : Z) : res cis :=
  do l <- mapM (mdown1 norb nelec smult) (as_list ci0) ;; like_ci0 l ci0.
Definition mup (ci0 : cis) (norb : nat) (nelec : nat * nat) (smult : Z) : res cis :=
  do l <- mapM (mup1 norb nelec smult) (as_list ci0) ;; like_ci0 l ci0.
