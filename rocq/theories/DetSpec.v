(** Specification: a determinant string assembled from one string per fragment. *)
From Coq Require Import List Arith.
From Verif Require Import Star DetModel.
Import ListNotations.
Local Open Scope nat_scope.

(** [s] consists of consecutive parts; part i has n_i orbitals and e_i electrons. *)
Definition made_of (fs : list (nat * nat)) (s : det) : Prop :=
  exists ps, Forall2 (fun f p => length p = fst f /\ count p = snd f) fs ps /\ s = concat ps.

(** All of them, the last fragment's string moving slowest *)
Fixpoint fprod (fs : list (nat * nat)) : list det :=
  match fs with
  | [] => [[]]
  | (n, e) :: r => flat_map (fun t => map (fun s => s ++ t) (strs n e)) (fprod r)
  end.

(** One product determinant of one product state: for each fragment a local state and two strings *)
Record choice (K : star_ring) := mkChoice { c_f : frag K; c_l : nat; c_sa : det; c_sb : det }.
Arguments mkChoice {K}. Arguments c_f {K}. Arguments c_l {K}. Arguments c_sa {K}. Arguments c_sb {K}.

Definition good_choice {K} (c : choice K) : Prop :=
  c_l c < f_l (c_f c) /\
  length (c_sa c) = f_norb (c_f c) /\ count (c_sa c) = f_na (c_f c) /\
  length (c_sb c) = f_norb (c_f c) /\ count (c_sb c) = f_nb (c_f c).

Definition amplitude {K} (c : choice K) : K :=
  f_ci (c_f c) (c_l c) (addr (f_norb (c_f c)) (f_na (c_f c)) (c_sa c))
                       (addr (f_norb (c_f c)) (f_nb (c_f c)) (c_sb c)).
