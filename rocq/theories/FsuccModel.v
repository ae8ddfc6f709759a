(** The Fock-space unitary coupled cluster kernels in C: lib/fsucc.c.

    Determinant strings are [N] (uint64_t), an array of amplitudes is a function from its index.
    The ring [K] stands for double arithmetic without rounding.  [None] is C behaviour without
    meaning: a shift of an int by 31 or more, or an array access beyond 2**norb. *)
From Coq Require Import List NArith ZArith Arith Bool.
From Verif Require Import Star.
Import ListNotations.

(** (1<<q) *)
Definition bit (q : nat) : N := N.shiftl 1 (N.of_nat q).
Definition isbit (d : N) (q : nat) : bool := negb (N.land d (bit q) =? 0)%N.

(** fsucc.c:86-95 - set the bits of [l]; [None]: nilpotent escape *)
Definition setbits (l : list nat) : option N :=
  fold_left (fun acc i => match acc with
                          | None => None
                          | Some d => if isbit d i then None else Some (N.lor d (bit i)) end) l (Some 0%N).

(** fsucc.c:97-101 *)
Definition count_dets (norb : nat) (mask : N) : N :=
  fold_left (fun n r => if isbit mask r then N.shiftr n 1 else n) (seq 0 norb) (bit norb).

(** fsucc.c:116-122 - insert a zero at every position of [mask], in ascending order *)
Definition insert0 (p : nat) (d : N) : N :=
  N.lor (N.shiftl (N.shiftr d (N.of_nat p)) (N.of_nat (p + 1))) (N.land d (bit p - 1)).
Definition spread (norb : nat) (mask det : N) : N :=
  fold_left (fun d p => if isbit mask p then insert0 p d else d) (seq 0 norb) det.

(** fsucc.c:135-148 - toggle [sgnbit] once for each occupied orbital above, then take the orbital out *)
Definition pop_sign (norb : nat) (idx : list nat) (sgnbit det : N) : N :=
  fst (fold_left (fun st p =>
         let '(s, d) := st in
         (fold_left (fun s q => N.lxor s (N.shiftr (N.land d (bit q)) (N.of_nat q))) (seq (p + 1) (norb - (p + 1))) s,
          N.lxor d (bit p))) idx (sgnbit, det)).
(** fsucc.c:149 *)
Definition sign_of (norb : nat) (aidx iidx : list nat) (det_ia det_ai : N) : Z :=
  let sgnbit := pop_sign norb iidx 0 det_ia in
  let sgnbit := pop_sign norb aidx sgnbit det_ai in
  (1 - 2 * Z.of_N sgnbit)%Z.

Definition nrange (n : N) : list N := map N.of_nat (seq 0 (N.to_nat n)).

Section Kernels.
Variable K : star_ring.
(** comparison of a double with 0.0 *)
Variable is0 : K -> bool.
Local Open Scope star_scope.
Let vec : Type := N -> K.

Definition wr (v : vec) (d : N) (x : K) : vec := fun e => if (e =? d)%N then x else v e.

(** conversion of an int to double *)
Definition of_int (z : Z) : K :=
  match z with Z0 => s0 | Zpos p => Pos.iter (sadd s1) s0 p | Zneg p => - Pos.iter (sadd s1) s0 p end.

(** FSUCCmixdetu: fsucc.c:38-47, called with psi and upsi the same array (line 181) *)
Definition mixdetu (amp0 amp1 : K) (sgn : Z) (psi : vec) (det_ia det_ai : N) : vec :=
  let snamp1 := of_int sgn * amp1 in
  let psi_ia := psi det_ia in
  let psi := wr psi det_ia (amp0 * psi_ia - snamp1 * psi det_ai) in
  wr psi det_ai (snamp1 * psi_ia + amp0 * psi det_ai).

(** FSUCCmixdetg: fsucc.c:49-54 *)
Definition mixdetg (amp : K) (psi : vec) (sgn : Z) (hpsi : vec) (det_ia det_ai : N) : vec :=
  wr hpsi det_ai (hpsi det_ai + of_int sgn * amp * psi det_ia).

(** FSUCCcontract1: fsucc.c:56-158.  [rd opsi] is the array read as psi while opsi is being
    written.  [sched] puts the iterations into the order in which the threads get through them;
    iterations are taken to be atomic (they touch disjoint cells: C57_disjoint). *)
Variable sched : list N -> list N.
Definition contract1 (rd : vec -> vec) (mixer : Z -> vec -> N -> N -> vec)
    (norb : nat) (aidx iidx : list nat) (opsi : vec) : option vec :=
  if negb ((norb <? 31)%nat && forallb (fun q => (q <? norb)%nat) (aidx ++ iidx)) then None else
  match setbits iidx, setbits aidx with
  | Some det_i, Some det_a =>
      Some (fold_left (fun opsi det =>
        let det_00 := spread norb (N.lor det_i det_a) det in
        let det_ia := N.lor det_00 det_i in
        let det_ai := N.lor det_00 det_a in
        if is0 (rd opsi det_ia) && is0 (rd opsi det_ai) then opsi
        else mixer (sign_of norb aidx iidx det_ia det_ai) opsi det_ia det_ai)
        (sched (nrange (count_dets norb (N.lor det_i det_a)))) opsi)
  | _, _ => Some opsi
  end.

(** FSUCCcontract1u: fsucc.c:160-182; [c] = cos tamp, [s] = sin tamp *)
Definition contract1u (norb : nat) (aidx iidx : list nat) (c s : K) (psi : vec) : option vec :=
  contract1 (fun opsi => opsi) (mixdetu c s) norb aidx iidx psi.

(** FSUCCcontract1g: fsucc.c:184-203 *)
Definition contract1g (norb : nat) (aidx iidx : list nat) (gamp : K) (psi hpsi : vec) : option vec :=
  contract1 (fun _ => psi) (mixdetg gamp psi) norb aidx iidx hpsi.

(** FSUCCprojai: fsucc.c:205-241 *)
Definition orbits (l : list nat) : N := fold_left (fun d i => N.lor d (bit i)) l 0%N.
Definition projai (norb : nat) (aidx iidx : list nat) (psi : vec) : option vec :=
  if negb ((norb <? 31)%nat && forallb (fun q => (q <? norb)%nat) (aidx ++ iidx)) then None else
  let det_i := orbits iidx in
  let det_a := orbits aidx in
  let det_ia := N.lor det_i det_a in
  Some (fold_left (fun psi det =>
    let det_proj := N.land det det_ia in
    if (det_proj =? det_i)%N then psi else if (det_proj =? det_a)%N then psi else wr psi det s0)
    (nrange (bit norb)) psi).

(** FSUCCfullhop, _fullhop_: fsucc.c:243-299.  [off] is the offset of the hop pointer into the
    array of operator amplitudes, [rest] = nelec-(ielec+1). *)
Fixpoint unpack_tril (fuel p q : nat) : nat * nat :=
  match fuel with
  | 0%nat => (p, q)
  | S f => if (p <? q)%nat then unpack_tril f (S p) (q - S p) else (p, q)
  end.
Definition bindO {A B : Type} (x : option A) (f : A -> option B) : option B :=
  match x with Some y => f y | None => None end.
Definition foldO {A S : Type} (f : A -> S -> option S) (l : list A) (s : S) : option S :=
  fold_left (fun acc x => bindO acc (f x)) l (Some s).

Fixpoint fullhop_ (hop : nat -> K) (psi : vec) (norb rest off : nat) (pidx qidx : list nat) (hpsi : vec) : option vec :=
  let npair := (norb * (norb + 1) / 2)%nat in
  let opstep := (npair ^ rest)%nat in
  foldO (fun pq_idx => 
    let '(p, q) := unpack_tril pq_idx 0 pq_idx in
    let pq := [p; q] in
    let nperm := (2 - (if (p =? q)%nat then 1 else 0))%nat in
    foldO (fun iperm =>
      foldO (fun spin hpsi =>
        let pidx := pidx ++ [(nth (0 + iperm) pq 0 + spin * norb)%nat] in
        let qidx := qidx ++ [(nth (1 - iperm) pq 0 + spin * norb)%nat] in
        match rest with
        | S r => fullhop_ hop psi norb r (off + pq_idx * opstep) pidx qidx hpsi
        | 0%nat => contract1g (2 * norb) pidx qidx (hop (off + pq_idx)%nat) psi hpsi
        end) (seq 0 2)) (seq 0 nperm)) (seq 0 npair) hpsi.
Definition fullhop (hop : nat -> K) (psi hpsi : vec) (norb nelec : nat) : option vec :=
  fullhop_ hop psi norb (nelec - 1) 0 [] [] hpsi.

(** FSUCCcontractS2: fsucc.c:301-337; [half] = 0.5.  The first loop overwrites s2psi. *)
Variable half : K.
Definition cntbits (lo n : nat) (d : N) : Z :=
  fold_left (fun c q => (c + Z.of_N (N.shiftr (N.land d (bit q)) (N.of_nat q)))%Z) (seq lo n) 0%Z.
Definition contractS2 (norb : nat) (psi s2psi : vec) : option vec :=
  if negb (2 * norb <? 31)%nat then None else
  let s2psi := fold_left (fun s2psi idet =>
    let na := cntbits 0 norb idet in
    let nb := cntbits norb norb idet in
    let sz := of_int (na - nb) * half in
    wr s2psi idet ((sz * sz + half * of_int (na + nb)) * psi idet)) (nrange (bit (2 * norb))) s2psi in
  foldO (fun p => foldO (fun q s2psi =>
    contract1g (2 * norb) [(p + norb)%nat; q] [(q + norb)%nat; p] (- s1) psi s2psi)
    (seq 0 norb)) (seq 0 norb) s2psi.
End Kernels.
