(** my_pyscf/lassi/lassis/coords.py: the step along LASSIS variables, with real numbers. *)
From Coq Require Import List Arith Reals RealField.
From Verif Require Import Base Star LsisModel.
Import ListNotations.
Local Open Scope R_scope.

Definition Rs : star_ring := mkStar R 0 1 Rplus Rmult Rminus Ropp RTheory (fun x => x)
  (fun _ _ => eq_refl) (fun _ _ => eq_refl) (fun _ => eq_refl).
Notation rmat := (mat Rs).
Definition thr : R := / 10 ^ 8.
(** norms of the rows: lassis/coords.py:346 *)
Definition phi (d : rmat) (r : nat) : R := sqrt (bsum (K := Rs) (seq 0 (nc d)) (fun j => el d r j * el d r j)).
(** lassis/coords.py:347-350 *)
Definition sinp (p : R) : R := if Rlt_dec thr (Rabs p) then sin p / p else 1.
(** lassis/coords.py:345-351, after both arrays have one row for each vector *)
Definition update_rows (ci0 dci : rmat) : rmat :=
  let d := remove Rs ci0 dci in
  @mkMat Rs (nr ci0) (nc ci0) (fun r j => cos (phi d r) * el ci0 r j + sinp (phi d r) * el d r j).
(** An array of two dimensions, or one of three dimensions as a matrix with one row for each vector.
    In two dimensions the whole array is one vector: lassis/coords.py:336-344, 352. *)
Inductive arr : Type := A2 (m : rmat) | A3 (m : rmat).
Definition rows (a : arr) : rmat :=
  match a with A2 m => reshape Rs 1 (nr m * nc m) (ravel Rs m) | A3 m => m end.
Definition update_civecs (ci0 dci : arr) : arr :=
  let u := update_rows (rows ci0) (rows dci) in
  match ci0 with A2 m => A2 (reshape Rs (nr m) (nc m) (ravel Rs u)) | A3 _ => A3 u end.
Definition transpose (m : rmat) : rmat := @mkMat Rs (nc m) (nr m) (fun r j => el m j r).
(** _update_sivecs: lassis/coords.py:354-361, for arrays of two dimensions *)
Definition update_sivecs (si0 dsi : rmat) : rmat :=
  match update_civecs (A2 (transpose si0)) (A2 (transpose dsi)) with A2 m => transpose m | A3 m => m end.
