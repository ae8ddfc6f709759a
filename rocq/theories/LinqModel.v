(** Which groups of CI vectors are the same or span the same space: get_unique_roots, lassi/citools.py:126-197.

    The CI vectors are real (the conjugations are left out); arithmetic is exact.  np.shares_memory is a function of the pair of
    rootspaces (max_work: TooHardError gives False), linalg.svd a parameter. *)
From Coq Require Import List Bool Arith ZArith Reals.
From Verif Require Import Base UrootModel.
Import ListNotations.
Local Open Scope R_scope.

(** sum of f 0, ..., f (n - 1) *)
Fixpoint rsum (n : nat) (f : nat -> R) : R := match n with O => 0 | S k => rsum k f + f k end.
Definition rmat := nat -> nat -> R.
Definition rltb (x y : R) : bool := if Rlt_dec x y then true else false.
Definition reqb (x y : R) : bool := if Req_EM_T x y then true else false.
Definition all_lt (n : nat) (p : nat -> bool) : bool := forallb p (seq 0 n).
Definition delta (a b : nat) : R := if (a =? b)%nat then 1 else 0.

(** one group of vectors: their number, the shape of each, and the coefficients in C order *)
Record group := mkG { g_lroots : nat; g_shape : list nat; g_vec : nat -> nat -> R }.
Definition g_size (g : group) : nat := fold_right Nat.mul 1%nat (g_shape g).
Record roots := mkRoots { r_n : nat; r_ci : nat -> group; r_nelec : nat -> Z * Z; r_disc : nat -> Z; r_shares : nat -> nat -> bool }.

(** ci_i.conj () @ ci_j.T: line 181 *)
Definition g_ovlp (x y : group) : rmat := fun a b => rsum (g_size x) (fun k => g_vec x a k * g_vec y b k).
(** np.all (ci[i]==ci[j]) and np.all (np.abs (ci[i]-ci[j]) < screen_thresh): lines 176-177 *)
Definition same_entries (x y : group) : bool := all_lt (g_lroots x) (fun a => all_lt (g_size x) (fun k => reqb (g_vec x a k) (g_vec y a k))).
Definition close_entries (eps : R) (x y : group) : bool := all_lt (g_lroots x) (fun a => all_lt (g_size x) (fun k => rltb (Rabs (g_vec x a k - g_vec y a k)) eps)).
(** np.all (np.abs (ovlp - np.eye (lroots[i])) < screen_thresh): line 182 *)
Definition near_one (eps : R) (n : nat) (o : rmat) : bool := all_lt n (fun a => all_lt n (fun b => rltb (Rabs (o a b - delta a b)) eps)).
(** np.trace (ovlp @ ovlp.conj ().T) and np.trace (ovlp.conj ().T @ ovlp): lines 185-186 *)
Definition trace1 (n : nat) (o : rmat) : R := rsum n (fun a => rsum n (fun b => o a b * o a b)).
Definition trace2 (n : nat) (o : rmat) : R := rsum n (fun b => rsum n (fun a => o a b * o a b)).
Definition spans (eps : R) (n : nat) (o : rmat) : bool := rltb (Rabs (trace1 n o / INR n - 1)) eps && rltb (Rabs (trace2 n o / INR n - 1)) eps.

Section Compare.
  (** the matrices u and vh and the singular values of an n x n matrix *)
  Variable svd : nat -> rmat -> rmat * (nat -> R) * rmat.
  Definition u_vh (n : nat) (o : rmat) : rmat := let '(u, _, vh) := svd n o in fun a b => rsum n (fun k => u a k * vh k b).
  (** lines 164-191: equal or not, and the entry of umat_root *)
  Definition compare (screen_linequiv : bool) (eps : R) (c : roots) (i j : nat) : bool * option rmat :=
    let x := r_ci c i in
    let y := r_ci c j in
    if negb ((fst (r_nelec c i) =? fst (r_nelec c j))%Z && (snd (r_nelec c i) =? snd (r_nelec c j))%Z) then (false, None) else
    if negb (g_lroots x =? g_lroots y)%nat then (false, None) else
    if negb (if list_eq_dec Nat.eq_dec (g_shape x) (g_shape y) then true else false) then (false, None) else
    if negb (r_disc c i =? r_disc c j)%Z then (false, None) else
    if r_shares c i j then (true, None) else
    if negb screen_linequiv then (false, None) else
    if same_entries x y then (true, None) else
    if close_entries eps x y then (true, None) else
    let n := g_lroots x in
    let o := g_ovlp x y in
    if near_one eps n o then (true, None) else
    if spans eps n o then (true, Some (u_vh n o)) else (false, None).
  (** the loop: lines 161-194 *)
  Definition uq_state := ((nat -> bool) * (nat -> nat) * (nat -> option rmat))%type.
  Definition uq_step (screen_linequiv : bool) (eps : R) (c : roots) (st : uq_state) (p : nat * nat) : uq_state :=
    let '(R, U, M) := st in
    let (i, j) := p in
    if negb (R i) then st else if negb (R j) then st else
    let (isequal, umat) := compare screen_linequiv eps c i j in
    let M' := match umat with Some u => aset M j (Some u) | None => M end in
    if isequal then (aset R j false, aset U j i, M') else (R, U, M').
  Definition unique_images (screen_linequiv : bool) (eps : R) (c : roots) : res uq_state :=
    let '(R, U, M) := fold_left (uq_step screen_linequiv eps c) (pairs (r_n c)) (fun _ => true, fun k => k, fun _ => None) in
    if forallb (fun i => R (U i)) (seq 0 (r_n c)) then Ok (R, U, M) else Raise AssertionError.
End Compare.
