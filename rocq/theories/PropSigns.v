(** Property theorems for the fermion sign factors: C11-C13.
    A fragment's creation operators are a word of letters; [anti b u v] says that [v] is reached from
    [u] by exchanging neighbouring anticommuting operators an odd ([b = true], sign -1) or even number
    of times.  [desc C p 0 n] is the product, highest fragment first, of the fragments selected by [p]. *)
From Coq Require Import List Arith Lia Bool.
From Verif Require Import Base Anti SignsModel SignsFacts.
Import ListNotations.

(** the sign is a function of the two words, so the theorems below determine the result *)
Theorem C11_sign_well_defined b b' (u v : list nat) : anti b u v -> anti b' u v -> b = b'.
Proof. exact (anti_unique b b' u v). Qed.
Print Assumptions C11_sign_well_defined.

(** A, B: up- and down-spin operators of each fragment *)
Theorem C11_spin_shuffle_sign (A B : list (list nat)) :
  length A = length B ->
  NoDup (concat (rev (map (fun p => fst p ++ snd p) (combine A B)))) ->
  exists b, fermion_spin_shuffle (map (@length nat) A) (map (@length nat) B) = Ok b /\
    anti b (concat (rev (map (fun p => fst p ++ snd p) (combine A B))))
           (concat (rev A) ++ concat (rev B)).
Proof. exact (spin_shuffle_sign A B). Qed.
Print Assumptions C11_spin_shuffle_sign.
Example C11_case :
  fermion_spin_shuffle [1; 2; 1] [2; 1; 3] = Ok false /\
  fermion_spin_shuffle [1; 2; 2] [2; 1; 2] = Ok true.
Proof. split; reflexivity. Qed.

(** Fewer than nine fragments (all listed indices below 8). *)
Theorem C12_frag_shuffle_sign_partial (C : list (list nat)) (fl : list nat) f0 :
  NoDup (desc C (fun _ => true) 0 (length C)) ->
  Forall (fun f => f < 8) fl -> Forall (fun f => f < length C) fl ->
  In f0 fl -> (forall f, In f fl -> f0 <= f) ->
  exists b, fermion_frag_shuffle (map (@length nat) C) fl = Ok b /\
    anti b (desc C (fun _ => true) 0 (length C))
           (desc C (fun f => negb (mem f fl) && (f0 <? f)) 0 (length C)
            ++ desc C (fun f => mem f fl) 0 (length C)
            ++ desc C (fun f => f <? f0) 0 (length C)).
Proof. exact (frag_shuffle_sign C fl f0). Qed.
Print Assumptions C12_frag_shuffle_sign_partial.
Example C12_case : fermion_frag_shuffle [1; 1; 2; 1; 3] [4; 0; 3; 0] = Ok false /\
  fermion_frag_shuffle [1; 1; 2; 1; 2] [4; 0; 3; 0] = Ok true.
Proof. split; vm_compute; reflexivity. Qed.

(** list (set (...)) of fragment indices is ascending when all are below 8 *)
Theorem C12_set_order_partial l N : Forall (fun k => k < 8) l -> Forall (fun k => k < N) l ->
  list_set l = Ok (filter (fun i => mem i l) (seq 0 N)).
Proof. exact (list_set_ascending l N). Qed.
Print Assumptions C12_set_order_partial.

(** Nine fragments: the set {1, 8} iterates as 8, 1 and the sign is wrong. *)
Theorem C12_frag_shuffle_sign_refuted : exists C fl f0 b,
  NoDup (desc C (fun _ => true) 0 (length C)) /\
  Forall (fun f => f < length C) fl /\ In f0 fl /\ (forall f, In f fl -> f0 <= f) /\
  fermion_frag_shuffle (map (@length nat) C) fl = Ok b /\
  ~ anti b (desc C (fun _ => true) 0 (length C))
           (desc C (fun f => negb (mem f fl) && (f0 <? f)) 0 (length C)
            ++ desc C (fun f => mem f fl) 0 (length C)
            ++ desc C (fun f => f <? f0) 0 (length C)).
Proof.
  exists [[0]; [1]; []; [3]; [4]; [5]; [6]; [7]; [8]], [1; 8], 1, false.
  split; [vm_compute; repeat constructor; cbn; intuition lia|].
  split; [repeat constructor; cbn; lia|]. split; [left; auto|].
  split; [intros f [<-|[<-|[]]]; lia|]. split; [vm_compute; reflexivity|].
  intros H. apply anti_parity in H. vm_compute in H. discriminate.
Qed.
Print Assumptions C12_frag_shuffle_sign_refuted.

Theorem C13_des_shuffle_sign_partial (C : list (list nat)) (fl : list nat) (i c : nat) :
  ~ In c (desc C (fun f => mem f fl) 0 (length C)) ->
  Forall (fun f => f < 8) fl -> Forall (fun f => f < length C) fl -> In i fl ->
  exists b, fermion_des_shuffle (map (@length nat) C) fl i = Ok b /\
    anti b (c :: desc C (fun f => mem f fl) 0 (length C))
           (desc C (fun f => mem f fl && (i <? f)) 0 (length C)
            ++ c :: desc C (fun f => mem f fl && (f <=? i)) 0 (length C)).
Proof. exact (des_shuffle_sign C fl i c). Qed.
Print Assumptions C13_des_shuffle_sign_partial.
Example C13_case : fermion_des_shuffle [1; 1; 2; 1; 3] [4; 0; 3] 0 = Ok false /\
  fermion_des_shuffle [1; 1; 2; 1; 3] [4; 0; 3] 3 = Ok true.
Proof. split; vm_compute; reflexivity. Qed.

Theorem C13_des_shuffle_sign_refuted : exists C fl i c b,
  ~ In c (desc C (fun f => mem f fl) 0 (length C)) /\
  Forall (fun f => f < length C) fl /\ In i fl /\
  fermion_des_shuffle (map (@length nat) C) fl i = Ok b /\
  ~ anti b (c :: desc C (fun f => mem f fl) 0 (length C))
           (desc C (fun f => mem f fl && (i <? f)) 0 (length C)
            ++ c :: desc C (fun f => mem f fl && (f <=? i)) 0 (length C)).
Proof.
  exists [[0]; [1]; [2]; [3]; [4]; [5]; [6]; [7]; [8]], [1; 8], 1, 99, false.
  split; [vm_compute; intuition lia|]. split; [repeat constructor; cbn; lia|]. split; [left; auto|].
  split; [vm_compute; reflexivity|].
  intros H. apply anti_parity in H. vm_compute in H. discriminate.
Qed.
Print Assumptions C13_des_shuffle_sign_refuted.
