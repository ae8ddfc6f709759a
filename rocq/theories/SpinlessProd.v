(** Product states of fragments in the spinless representation. *)
From Coq Require Import List NArith Arith Bool Lia Ring Btauto.
From Verif Require Import Base Star FockSpec FockFacts FockOps ProdFock PermFock LprodSpec LasFock LasElem CrunchFacts DetModel HalfSpec HalfFacts SpinlessModel SpinlessFock.
Import ListNotations.
Local Open Scope nat_scope.

Lemma rsign_ext nf P (b b' : nat -> bool) fs : (forall f, b f = b' f) -> rsign nf P b fs = rsign nf P b' fs.
Proof. intros H. induction fs as [|f r IH]; [reflexivity|]. cbn [rsign]. rewrite IH. do 2 f_equal. unfold abv. apply parity_ext. intros g _. now rewrite H. Qed.
Section Prod.
Variables (nf : nat) (n : nat -> nat) (K : star_ring).
Add Ring Kr : (sring K).
Definition twice (f : nat) : nat := 2 * n f.
Definition sop (x : opr) : opr := let '(k, (f, dn, l)) := x in (k, (f, false, (if dn : bool then n f else 0) + l)).
Definition sfrag (ne : nat -> nat * nat) (c : nat -> mat K) (f : nat) : vec K := civec (twice f) (spinless_ne (ne f)) (spinless_mat (n f) (ne f) (c f)).
Lemma sop_at f ops : at_frag f (map sop ops) = map sop (at_frag f ops).
Proof.
  induction ops as [|[k [[g dn] l]] r IH]; [reflexivity|]. unfold at_frag in *. cbn [map filter]. replace (opfrag (sop (k, (g, dn, l)))) with g by reflexivity. replace (opfrag (k, (g, dn, l))) with g by reflexivity.
  rewrite IH. destruct (g =? f); reflexivity.
Qed.
Lemma sop_frag ops : map opfrag (map sop ops) = map opfrag ops.
Proof. rewrite map_map. apply map_ext. intros [k [[g dn] l]]. reflexivity. Qed.
Lemma sop_ok ops : Forall (okop nf n) ops -> Forall (okop nf twice) (map sop ops).
Proof. intros H. apply Forall_map. revert H. apply Forall_impl. intros [k [[g dn] l]] [H1 H2]. split; [exact H1|]. unfold twice. destruct dn; lia. Qed.
Lemma lops_spl f ops (w' w : vec K) : Forall (fun x => opfrag x = f /\ snd (snd x) < n f) ops -> veq K (2 * n f + 2 * n f) w' (spl K (n f) w) ->
  veq K (2 * n f + 2 * n f) (lops K twice (map sop ops) w') (spl K (n f) (lops K n ops w)).
Proof.
  induction 1 as [|[k [[g dn] l]] ops [Hg Hl] F IH]; intros E; [exact E|]. cbn in Hg, Hl. subst g. specialize (IH E). cbn [map sop lops fold_right].
  change (fold_right _ w' (map sop ops)) with (lops K twice (map sop ops) w'). change (fold_right _ w ops) with (lops K n ops w).
  assert (I : In (dn, l) (lbls (n f))) by (now apply in_lbls).
  replace (2 * twice f) with (2 * n f + 2 * n f) by (unfold twice; lia).
  replace (lorb twice f false ((if dn then n f else 0) + l)) with (2 * n f + nb (n f) (dn, l)) by (unfold lorb, twice, nb; cbn [fst snd]; lia).
  replace (lorb n f dn l) with (na (n f) (dn, l)) by reflexivity.
  intros d Hd. transitivity (fld K k (2 * n f + 2 * n f) (2 * n f + nb (n f) (dn, l)) (spl K (n f) (lops K n ops w)) d).
  - apply (fld_ext K k); [unfold nb; cbn [fst snd]; destruct dn; lia|exact IH|exact Hd].
  - apply (spl_fld K (n f) k (dn, l) (lops K n ops w) d I Hd).
Qed.
Lemma sfrag_spl ne c f : veq K (2 * n f + 2 * n f) (sfrag ne c f) (spl K (n f) (civec (n f) (ne f) (c f))).
Proof. intros d Hd. now apply spl_civec. Qed.
Lemma floc_spl nu nv (cu cv : nat -> mat K) ops f : Forall (okop nf n) ops ->
  floc twice K (sfrag nu cu) (sfrag nv cv) (map sop ops) f = floc n K (fun f => civec (n f) (nu f) (cu f)) (fun f => civec (n f) (nv f) (cv f)) ops f.
Proof.
  intros H. unfold floc. rewrite sop_at. replace (2 * twice f) with (2 * n f + 2 * n f) by (unfold twice; lia).
  rewrite <- (spl_inner K (n f)). apply inner_ext; [apply sfrag_spl|]. apply lops_spl; [|apply sfrag_spl].
  apply Forall_forall. intros [k [[g dn] l]] I. apply filter_In in I as [I Ef]. rewrite Forall_forall in H. specialize (H _ I). cbn in Ef. unfold opfrag in *. cbn [fst snd] in *. apply Nat.eqb_eq in Ef. subst g. split; [reflexivity|apply H].
Qed.
Lemma spar_spl (ne : nat -> nat * nat) : spar nf (fun f => spinless_ne (ne f)) = false.
Proof. unfold spar. cbn [spinless_ne fst snd]. apply parity_false. intros f _. rewrite (parity_false (fun g => (f <? g) && Nat.odd 0)) by (intros; apply andb_false_r). apply andb_false_r. Qed.
(** The matrix elements of the mapped operators between the mapped states are the original ones up to the signs of the rootspaces. *)
Lemma elem_spl nu nv (cu cv : nat -> mat K) (u v : nat -> vec K) ops : Forall (okop nf n) ops -> (forall f, f < nf -> u f = sfrag nu cu f) -> (forall f, f < nf -> v f = sfrag nv cv f) ->
  elem nf twice K u v (map sop ops) =
  sg K (xorb (spar nf nu) (spar nf nv)) (elem nf n K (fun f => civec (n f) (nu f) (cu f)) (fun f => civec (n f) (nv f) (cv f)) ops).
Proof.
  intros H Hu Hv. rewrite (elem_factor nf twice K u (fun f => spinless_ne (nu f)) v (fun f => spinless_ne (nv f))); [|intros f Hf; rewrite (Hu f Hf); apply civec_nelec|intros f Hf; rewrite (Hv f Hf); apply civec_nelec|now apply sop_ok].
  rewrite (elem_factor nf n K _ nu _ nv) by (first [intros; apply civec_nelec|assumption]). rewrite !spar_spl, sop_frag, sg_sg.
  rewrite (bprod_ext K _ (floc twice K u v (map sop ops)) (floc n K (fun f => civec (n f) (nu f) (cu f)) (fun f => civec (n f) (nv f) (cv f)) ops)).
  - apply (f_equal (fun b => sg K b _)). rewrite (rsign_ext nf (fun _ => true) (par (fun f => spinless_ne (nv f))) (par nv)) by (intros f; unfold par, spinless_ne; cbn [fst snd]; now rewrite Nat.add_0_r). btauto.
  - intros f If. apply in_seq in If. rewrite <- (floc_spl nu nv cu cv ops f H). unfold floc. rewrite Hu, Hv by lia. reflexivity.
Qed.
End Prod.
