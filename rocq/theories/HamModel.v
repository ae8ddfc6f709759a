(** The matrices of the Hamiltonian and of the squared spin between product states: class HamS2Ovlp, lassi/op_o1/hams2ovlp.py:17-493,
    and OpTerm, lassi/op_o1/opterm.py:75-155.

    As in [CrunchModel], arrays are functions of their list of indices, orbitals are addressed by (fragment, number), there are no
    spin multiplets to be lowered (smult is None: reduce_spin, opterm.py:85-91, adds up the components) and arithmetic is exact.
    An array of a fragment with axes for the states of the bra and of the ket is the family of its entries for these states. *)
From Coq Require Import List ZArith Bool Arith.
From Verif Require Import Base Star SignsModel AddrModel ExcModel UexcModel StdmModel CrunchModel.
Import ListNotations.
Local Open Scope nat_scope.

(** entries of an index vector *)
Fixpoint idxs (dims : list nat) : list (list nat) :=
  match dims with [] => [[]] | d :: r => flat_map (fun v => map (cons v) (idxs r)) (seq 0 d) end.
(** list of v[k] at the position which xs[k] counts from the end *)
Definition place (xs v : list nat) : list nat := map (fun m => nth (axis m xs) v 0) (rev (seq 1 (length xs))).

Section Ham.
  Context {K : star_ring}.
  Notation arr := (@arr K).
  (** np.tensordot (a, b, axes=(-xa,-xb)): all orbital axes of a, of lengths dims, and the last ones of b *)
  Definition tensordot (dims xa xb : list nat) (a b : arr) : arr :=
    fun rest => bsum (idxs dims) (fun v => smul (a (place xa v)) (b (rest ++ place xb v))).
  (** a.sum (axis) for the first axis *)
  Definition sum0 (d : nat) (a : arr) : arr := fun i => bsum (seq 0 d) (fun c => a (c :: i)).
  Definition ascale (c : K) (a : arr) : arr := fun i => smul c (a i).
  Definition aadd (a b : arr) : arr := fun i => sadd (a i) (b i).
  Definition asub (a b : arr) : arr := fun i => ssub (a i) (b i).
  (** canonical transformation of the spin: lassi/op_o1/frag.py:390-395 *)
  Definition to_cs (a : arr) : arr := fun i =>
    if hd 0 i =? 0 then sadd (a (0 :: tl i)) (a (1 :: tl i)) else ssub (a (0 :: tl i)) (a (1 :: tl i)).
  Definition trace2 (d : nat) (a : arr) : K := bsum (seq 0 d) (fun p => a [p; p]).

  Variable half : K.
  Definition sgn (neg : bool) : K := if neg then sopp s1 else s1.
  Definition three : K := sadd s1 (sadd s1 s1).
  Definition quarter : K := smul half half.

  Variable norb : nat -> nat.
  Variable ints : nat -> @fmats K.
  Variable uroot : nat -> nat -> nat.
  Variable nelec_rf : nat -> list nat.
  (** h1[s,p,q], h2[p,q,r,s]: lines 40-42 (an h1 without spin is used for both) *)
  Variable h1 : nat -> nat * nat -> nat * nat -> K.
  Variable h2 : nat * nat -> nat * nat -> nat * nat -> nat * nat -> K.
  (** get_ham_2q: lines 206-217 *)
  Definition ham2 (i j : nat) : arr := fun x => h1 (nth 0 x 0) (i, nth 1 x 0) (j, nth 2 x 0).
  Definition ham4 (i j k l : nat) : arr := fun x => h2 (i, nth 0 x 0) (j, nth 1 x 0) (k, nth 2 x 0) (l, nth 3 x 0).

  (** what a cruncher makes of one pair of states: sum of the components of ham, and s2 or None *)
  Definition opval := (K * option K)%type.
  Variables (bra ket : nat * list nat).
  Notation dm1 f := (get_1_dm1 ints uroot f bra ket).
  Notation dm2 f := (get_1_dm2 ints uroot f bra ket).
  Notation op_p f s := (get_1_p ints uroot f bra ket s).
  Notation op_h f s := (get_1_h ints uroot f bra ket s).
  Notation des := (des nelec_rf).

  (** _crunch_1d_: lines 219-239.  d2s.diagonal (3,4).diagonal (3,4): entries [c,p,p,r,r]; (...).diagonal (2,5).diagonal (2,3): [p,q,q,p] *)
  Definition ham_1d (i : nat) : res opval :=
    do d <- dm1 i ;; let d1s := tpose [0; 2; 1] d in
    do d2s <- dm2 i ;; let d2 := tpose [1; 0; 3; 2] (sum0 4 d2s) in
    let n := norb i in
    let ham := tensordot [2; n; n] [3; 2; 1] [3; 2; 1] d1s (ham2 i i) [] in
    let ham := sadd ham (smul (tensordot [n; n; n; n] [4; 3; 2; 1] [4; 3; 2; 1] d2 (ham4 i i i i) []) half) in
    let s2 := smul quarter (smul three (bsum (seq 0 2) (fun s => trace2 n (sub s d1s)))) in
    let m2 := fun c => smul quarter (bsum (seq 0 n) (fun p => bsum (seq 0 n) (fun r => d2s [c; p; p; r; r]))) in
    let s2 := sadd s2 (ssub (ssub (sadd (m2 0) (m2 3)) (m2 1)) (m2 2)) in
    let d12 := aadd (sub 1 d2s) (sub 2 d2s) in
    let s2 := ssub s2 (smul half (bsum (seq 0 n) (fun p => bsum (seq 0 n) (fun q => d12 [p; q; q; p])))) in
    Ok (ham, Some s2).
  (** _crunch_2d_: lines 241-265 *)
  Definition ham_2d (i j : nat) : res opval :=
    do d <- dm1 i ;; let d1s_ii := to_cs d in
    do d <- dm1 j ;; let d1s_jj := to_cs d in
    let ni := norb i in let nj := norb j in
    let h := tensordot [ni; ni] [1; 2] [2; 1] (sub 0 d1s_ii) (ham4 j j i i) in
    let ham0 := tensordot [nj; nj] [1; 2] [2; 1] (sub 0 d1s_jj) h [] in
    let hs := ascale half (tpose [0; 3; 2; 1] (ham4 j i i j)) in
    let ex := fun s => tensordot [nj; nj] [1; 2] [2; 1] (sub s d1s_jj) (tensordot [ni; ni] [1; 2] [2; 1] (sub s d1s_ii) hs) [] in
    let mi := trace2 ni (sub 1 d1s_ii) in
    let mj := trace2 nj (sub 1 d1s_jj) in
    Ok (sadd (ssub ham0 (ex 0)) (ssub s0 (ex 1)), Some (smul half (smul mj mi))).
  (** _crunch_1c_: lines 267-303 *)
  Definition ham_1c (i j s1 : nat) : res opval :=
    do f1 <- des bra [i; j] i ;; do f2 <- des ket [i; j] j ;;
    let ni := norb i in let nj := norb j in
    do p_i <- op_p i s1 ;;
    do d <- get_1_pph ints uroot i bra ket s1 ;; let pph_i := sum0 2 d in
    do h_j <- op_h j s1 ;;
    do d <- get_1_phh ints uroot j bra ket s1 ;; let phh_j := sum0 2 d in
    let ham := tensordot [nj] [1] [1] h_j (tensordot [ni] [1] [1] p_i (sub s1 (ham2 j i))) [] in
    let ham := sadd ham (tensordot [nj] [1] [1] h_j (tensordot [ni; ni; ni] [3; 2; 1] [3; 1; 2] pph_i (ham4 j i i i)) []) in
    let ham := sadd ham (tensordot [nj; nj; nj] [3; 2; 1] [2; 3; 1] phh_j (tensordot [ni] [1] [1] p_i (ham4 j j j i)) []) in
    Ok (smul (sgn (xorb f1 f2)) ham, None).
  (** _crunch_1c1d_: lines 305-337 *)
  Definition ham_1c1d (i j k s1 : nat) : res opval :=
    do f1 <- des bra [i; j; k] i ;; do f2 <- des ket [i; j; k] j ;; let fac := sgn (xorb f1 f2) in
    let ni := norb i in let nj := norb j in let nk := norb k in
    do p_i <- op_p i s1 ;; do h_j <- op_h j s1 ;;
    do d <- dm1 k ;; let cs := to_cs d in
    let d1s_k := fun s => if s =? 0 then sub 0 cs else ascale (sgn (s1 =? 1)) (sub 1 cs) in
    let h := tensordot [nj] [1] [1] h_j (tensordot [ni] [1] [1] p_i (ham4 k k j i)) in
    let ham0 := tensordot [nk; nk] [1; 2] [2; 1] (d1s_k 0) h [] in
    let h := tensordot [nj] [1] [1] h_j (tensordot [ni] [1] [1] p_i (tpose [1; 2; 0; 3] (ham4 j k k i))) in
    let ex := fun s => tensordot [nk; nk] [2; 1] [2; 1] (ascale half (d1s_k s)) h [] in
    Ok (sadd (smul (ssub ham0 (ex 0)) fac) (smul (ssub s0 (ex 1)) fac), None).
  (** _crunch_1s_: lines 339-367 *)
  Definition ham_1s (i j : nat) : res opval :=
    do sp_i <- get_1_sp ints uroot i bra ket ;; do sm_j <- get_1_sm ints uroot j bra ket ;;
    let ni := norb i in let nj := norb j in
    let h := tensordot [ni; ni] [2; 1] [2; 1] sp_i (tpose [0; 3; 2; 1] (ham4 j i i j)) in
    let ham := tensordot [nj; nj] [2; 1] [2; 1] sm_j h [] in
    Ok (smul (sgn true) ham, Some (smul (sopp (sgn true)) (smul (trace2 nj sm_j) (trace2 ni sp_i)))).
  (** _crunch_1s1c_: lines 369-402 *)
  Definition ham_1s1c (i j k s1 : nat) : res opval :=
    let s2 := 1 - s1 in
    do f1 <- des bra [i; j; k] i ;; do f2 <- des ket [i; j; k] j ;; let fac := sgn (xorb true (xorb f1 f2)) in
    let ni := norb i in let nj := norb j in let nk := norb k in
    let h := tpose [1; 2; 0; 3] (ham4 j k k i) in
    do p_i <- op_p i s1 ;; let h := tensordot [ni] [1] [1] p_i h in
    do h_j <- op_h j s2 ;; let h := tensordot [nj] [1] [1] h_j h in
    do d_kk <- (if s1 =? 0 then get_1_sm ints uroot k bra ket else get_1_sp ints uroot k bra ket) ;;
    Ok (smul fac (tensordot [nk; nk] [2; 1] [2; 1] d_kk h []), None).
  (** _crunch_2c_: lines 404-492 *)
  Definition ham_2c (a i b j s2lt : nat) : res opval :=
    let s2 := nth s2lt [0; 1; 3] 0 in
    let s11 := s2 / 2 in
    let s12 := s2 mod 2 in
    let fr := [a; i; b; j] in
    let na := norb a in let ni := norb i in let nb := norb b in let nj := norb j in
    let fac := if (a =? b) && (i =? j) && (s11 =? s12) then half else s1 in
    do f1 <- (if i =? j then Ok false else do x <- des ket fr i ;; do y <- des ket fr j ;; Ok (xorb (j <? i) (xorb x y))) ;;
    do f2 <- (if a =? b then Ok false else do x <- des bra fr a ;; do y <- des bra fr b ;; Ok (xorb (b <? a) (xorb x y))) ;;
    let fac := smul fac (smul (sgn f1) (sgn f2)) in
    let h_j := tpose [0; 2; 3; 1] (ham4 j b i a) in
    let h_k := tpose [0; 2; 1; 3] (ham4 j a i b) in
    let weird := negb (s11 =? s12) && ((a =? b) || (i =? j)) in
    let ham := if weird then [aadd h_j h_k; asub h_j h_k]
               else if (s11 =? s12) && negb (a =? b) && negb (i =? j) then [asub h_j h_k] else [h_j] in
    let fac := if weird then smul fac half else fac in
    do dot_ab <- (if a =? b then do pp <- get_1_pp ints uroot a bra ket s2lt ;; Ok (tensordot [na; na] [2; 1] [2; 1] pp)
                  else do p_b <- op_p b s12 ;; do p_a <- op_p a s11 ;;
                       Ok (fun h => tensordot [na] [1] [1] p_a (tensordot [nb] [1] [1] p_b h))) ;;
    do dot_ij <- (if i =? j then do hh <- get_1_hh ints uroot i bra ket s2lt ;; Ok (tensordot [ni; ni] [2; 1] [2; 1] hh)
                  else do h_i <- op_h i s11 ;; do h_j <- op_h j s12 ;;
                       Ok (fun h => tensordot [nj] [1] [1] h_j (tensordot [ni] [1] [1] h_i h))) ;;
    Ok (bsum ham (fun h => smul (dot_ij (dot_ab h) []) fac), None).

  (** the function and its arguments for each table: stdm.py:1071-1079 *)
  Definition crunch_ham (lbl : nat) (frags : list nat) (spin : option nat) : res opval :=
    match lbl, frags, spin with
    | 0, [i], None => ham_1d i
    | 1, [i; j], None => ham_2d i j
    | 2, [i; j], Some s => ham_1c i j s
    | 3, [i; j; k], Some s => ham_1c1d i j k s
    | 4, [i; j], None => ham_1s i j
    | 5, [i; j; k], Some s => ham_1s1c i j k s
    | 6, [a; i; b; j], Some s => ham_2c a i b j s
    | _, _, _ => Raise TypeError
    end.
End Ham.
