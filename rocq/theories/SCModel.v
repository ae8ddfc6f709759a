(** Slater-Condon selection of interactions between rootspaces: lib/lassi/slatercondon.c and
    my_pyscf/lassi/op_o1/utilities.py. *)
From Coq Require Import List ZArith Bool Arith.
From Verif Require Import Base.
Import ListNotations.
Local Open Scope Z_scope.

(** Electrons (alpha, beta) of each fragment of one rootspace. *)
Definition occ := list (Z * Z).

(** Loop of slatercondon.c:21-34: accumulates (sa, sb, d).  int arithmetic is taken as exact. *)
Definition sc_acc (acc : Z * Z * Z) (p : (Z * Z) * (Z * Z)) : Z * Z * Z :=
  let '(sa, sb, d) := acc in
  let '((ba, bb), (ka, kb)) := p in
  let dna := ba - ka in
  let dnb := bb - kb in
  (sa + dna, sb + dnb, d + Z.abs dna + Z.abs dnb).
Definition sc_sums (bra ket : occ) : Z * Z * Z := fold_left sc_acc (combine bra ket) (0, 0, 0).

(** is_interaction_coupled: slatercondon.c:19-36 *)
Definition is_interaction_coupled (bra ket : occ) : bool :=
  let '(sa, sb, d) := sc_sums bra ket in
  (sa =? 0) && (sb =? 0) && (d <=? 4).

(** is_interaction_coupled_s: slatercondon.c:38-74.  A failed C assertion is AssertionError. *)
Fixpoint sladder_loop (is_coupled : bool) (l : list (((Z * Z) * (Z * Z)) * (Z * Z))) (sladder : Z)
  : res Z :=
  match l with
  | [] => Ok sladder
  | (((ba, bb), (ka, kb)), (sbra, sket)) :: r =>
      let dn := Z.abs (ba - ka) + Z.abs (bb - kb) in
      let ds := Z.abs (sbra - sket) in
      if dn <? ds then
        if is_coupled && negb ((ds - dn) mod 2 =? 0) then Raise AssertionError
        else sladder_loop is_coupled r (sladder - (ds - dn) / 2)
      else sladder_loop is_coupled r sladder
  end.
Definition is_interaction_coupled_s (bra ket : occ) (smult_bra smult_ket : list Z) : res bool :=
  let '(sa, sb, d) := sc_sums bra ket in
  let is_coupled := (sa =? 0) && (sb =? 0) && (d <=? 4) in
  if is_coupled && (d =? 3) then Raise AssertionError
  else
    let sladder := if 2 <? d then 0 else if 0 <? d then 1 else 2 in
    do sl <- sladder_loop is_coupled (combine (combine bra ket) (combine smult_bra smult_ket)) sladder ;;
    Ok (is_coupled && (0 <=? sl)).

(** ** The threaded listing loop

    slatercondon.c:163-208 (SClistinter) and 210-263 (SClistinterspin): both run the same code around
    different tests, so the test is a parameter.  Each thread runs its own iterations of the loop,
    collecting pairs in a private buffer of [nexc] rows, then copies the buffer into the shared array
    inside the critical section.  Every thread step is atomic; any thread may step at any time.  The
    implicit barrier at the end of the omp for is left out, which only allows more executions.
    Writing outside a buffer makes the machine [fault]. *)
Inductive tstate : Set :=
| Loop (todo : list nat) (mine : list (nat * nat))
| Crit (mine : list (nat * nat)) (i : nat)
| Done.
Record mach : Set := mkMach {
  threads : list tstate;
  exc : list Z;
  iexc : nat;
  lock : option nat;
  fault : bool }.

Definition flat_pairs (l : list (nat * nat)) : list Z :=
  flat_map (fun p => [Z.of_nat (fst p); Z.of_nat (snd p)]) l.
Definition setth (t : nat) (s : tstate) (l : list tstate) : list tstate := upd t (fun _ => s) l.

Section Machine.
Variables (nket nexc : nat) (coupled : nat -> nat -> bool).

Inductive step : mach -> mach -> Prop :=
| StepSkip t iel todo mine ths e ie lk :
    nth_error ths t = Some (Loop (iel :: todo) mine) ->
    coupled (iel / nket)%nat (iel mod nket)%nat = false ->
    step (mkMach ths e ie lk false) (mkMach (setth t (Loop todo mine) ths) e ie lk false)
| StepKeep t iel todo mine ths e ie lk :
    nth_error ths t = Some (Loop (iel :: todo) mine) ->
    coupled (iel / nket)%nat (iel mod nket)%nat = true ->
    step (mkMach ths e ie lk false)
         (mkMach (setth t (Loop todo (mine ++ [(iel / nket, iel mod nket)%nat])) ths) e ie lk
                 (negb (length mine <? nexc)%nat))
| StepEnter t mine ths e ie :
    nth_error ths t = Some (Loop [] mine) ->
    step (mkMach ths e ie None false) (mkMach (setth t (Crit mine 0) ths) e ie (Some t) false)
| StepCopy t mine i v ths e ie lk :
    nth_error ths t = Some (Crit mine i) ->
    nth_error (flat_pairs mine) i = Some v ->
    step (mkMach ths e ie lk false)
         (mkMach (setth t (Crit mine (S i)) ths) (upd (ie + i) (fun _ => v) e) ie lk
                 (negb (ie + i <? length e)%nat))
| StepExit t mine i ths e ie lk :
    nth_error ths t = Some (Crit mine i) ->
    i = (length mine * 2)%nat ->
    step (mkMach ths e ie lk false)
         (mkMach (setth t Done ths) e (ie + length mine * 2) None false).

Inductive steps : mach -> mach -> Prop :=
| StepsRefl m : steps m m
| StepsCons m1 m2 m3 : step m1 m2 -> steps m2 m3 -> steps m1 m3.

(** Start: exc filled with -1 (utilities.py:140), iterations dealt out to the threads. *)
Definition start (chunks : list (list nat)) : mach :=
  mkMach (map (fun c => Loop c []) chunks) (repeat (-1) (nexc * 2)) 0 None false.
Definition finished (m : mach) : Prop := Forall (fun s => s = Done) (threads m) /\ fault m = false.
End Machine.

(** SCcntinter: slatercondon.c:76-112: every thread counts its own iterations, then adds its count. *)
Definition sc_count (nket : nat) (coupled : nat -> nat -> bool) (chunks : list (list nat)) : Z :=
  fold_left (fun n c =>
    n + Z.of_nat (length (filter (fun iel => coupled (iel / nket)%nat (iel mod nket)%nat) c))) chunks 0.

(** The C function returns long, but no restype is declared, so ctypes reads a 32-bit int. *)
Definition as_c_int (n : Z) : Z := (n + 2 ^ 31) mod 2 ^ 32 - 2 ^ 31.

(** np.lexsort ((exc[:,1], exc[:,0])) followed by exc[ix]: rows in ascending order of (first, second) *)
Definition leb_row (p q : Z * Z) : bool :=
  (fst p <? fst q) || ((fst p =? fst q) && (snd p <=? snd q)).
Fixpoint insert_row (x : Z * Z) (l : list (Z * Z)) : list (Z * Z) :=
  match l with
  | [] => [x]
  | y :: l' => if leb_row x y then x :: l else y :: insert_row x l'
  end.
Fixpoint sort_rows (l : list (Z * Z)) : list (Z * Z) :=
  match l with [] => [] | x :: l' => insert_row x (sort_rows l') end.
Fixpoint rows_of (e : list Z) : list (Z * Z) :=
  match e with a :: b :: r => (a, b) :: rows_of r | _ => [] end.

(** _get_scallowed_interactions_nosmult / _smult: utilities.py:127-165, without the memory limit.
    [c1] and [c2] are the divisions of the loops among the threads of the two C calls. *)
Inductive scallowed (nroots : nat) (coupled : nat -> nat -> bool) (c1 c2 : list (list nat))
  : res (list (Z * Z)) -> Prop :=
| SCneg : as_c_int (sc_count nroots coupled c1) < 0 ->
    scallowed nroots coupled c1 c2 (Raise ValueError)
| SCrun nexc m : as_c_int (sc_count nroots coupled c1) = Z.of_nat nexc ->
    steps nroots nexc coupled (start nexc c2) m -> finished m ->
    scallowed nroots coupled c1 c2 (Ok (sort_rows (rows_of (exc m)))).

(** ** Fingerprints of interactions *)

(** bubblesort: slatercondon.c:279-291, for at least one element (len_a - 1 wraps for none) *)
Fixpoint bubble_pass (n : nat) (l : list Z) : list Z :=
  match n, l with
  | S n', x :: y :: r => if y <? x then y :: bubble_pass n' (x :: r) else x :: bubble_pass n' (y :: r)
  | _, _ => l
  end.
Fixpoint bubble_outer (k : nat) (len i : nat) (l : list Z) : list Z :=
  match k with
  | O => l
  | S k' => bubble_outer k' len (S i) (bubble_pass (len - i - 1) l)
  end.
Definition bubblesort (l : list Z) : list Z := bubble_outer (length l - 1) (length l) 0 l.

(** fnv_1a: slatercondon.c:267-277, 64-bit words *)
Definition word64 (x : Z) : Z := x mod 2 ^ 64.
Definition fnv_1a (arr : list Z) : Z :=
  fold_left (fun h a => word64 (Z.lxor h (word64 a) * 1099511628211)) arr 14695981039346656037.

(** One row of SCfprint: slatercondon.c:334-361.  [uroot r f] is urootstr[r*ncols+f].  *)
Fixpoint fp_trans (brastr ketstr : list Z) (unsorted trans : bool) : bool :=
  match brastr, ketstr with
  | b :: br, k :: kr =>
      fp_trans br kr (if b =? k then unsorted else false) (if unsorted && (b <? k) then true else trans)
  | _, _ => trans
  end.
Definition fp_row (uroot : Z -> Z -> Z) (bra ket : Z) (frags : list Z) : Z * Z :=
  let fr := bubblesort frags in
  let brastr := map (uroot bra) fr in
  let ketstr := map (uroot ket) fr in
  let fprint := fnv_1a (fr ++ brastr ++ ketstr) in
  let trans := fp_trans brastr ketstr true false in
  (fprint, fnv_1a (if trans then fr ++ ketstr ++ brastr else fr ++ brastr ++ ketstr)).

(** ** Work division *)

(** get_contig_blks: utilities.py:167-176 *)
Definition where_true (l : list bool) : list nat :=
  filter (fun k => nth k l false) (seq 0 (length l)).
Definition get_contig_blks (mask : list bool) : list nat * list nat * list nat :=
  let prevm := false :: removelast mask in
  let nextm := tl mask ++ [false] in
  let deststart := where_true (map (fun p => fst p && negb (snd p)) (combine mask prevm)) in
  let destend := where_true (map (fun p => fst p && negb (snd p)) (combine mask nextm)) in
  let blklen := map (fun p => (snd p - fst p + 1)%nat) (combine deststart destend) in
  let fix cum (acc : nat) (l : list nat) : list nat :=
    match l with [] => [] | x :: r => (acc + x)%nat :: cum (acc + x)%nat r end in
  (cum 0%nat (0%nat :: removelast blklen), deststart, blklen).

(** split_contig_array: utilities.py:178-187; divmod by zero raises ZeroDivisionError *)
Definition split_contig_array (arrlen nthreads : nat) : res (list nat * list nat) :=
  let nth' := Nat.min arrlen nthreads in
  match nth' with
  | O => Raise ZeroDivisionError
  | _ =>
    let q := (arrlen / nth')%nat in
    let rem := (arrlen mod nth')%nat in
    let blklen := map (fun k => if (k <? rem)%nat then S q else q) (seq 0 nth') in
    let fix cum (acc : nat) (l : list nat) : list nat :=
      match l with [] => [] | x :: r => (acc + x)%nat :: cum (acc + x)%nat r end in
    let ends := cum 0%nat blklen in
    py_assert (last ends 0 =? arrlen)%nat
      (Ok (map (fun p => (fst p - snd p)%nat) (combine ends blklen), blklen))
  end.
