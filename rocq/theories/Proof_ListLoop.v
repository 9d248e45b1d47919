(** The ForEach loops of SList and DList are the loops over their listings. *)
From Verif Require Import BaseLemmas Nodes Spec Trace Spec_List Spec_Client Spec_ListIter Model_ListIter Proof_Client Proof_ListIter Proof_Nodes Proof_ListEach.
From Verif Require Model_SList Model_DList Proof_SList Proof_DList Proof_SListIter Proof_DListIter.
Set Default Proof Using "Type".

Lemma bind_same {S A B} (m m' : M S A) (f f' : A -> M S B) s : m s = m' s -> (forall a s', f a s' = f' a s') -> bind m f s = bind m' f' s.
Proof. intros E H. unfold bind. rewrite E. destruct (m' s) as [[a| |] s']; auto. Qed.
Lemma on_list_same_step {S P A B} (m : M S A) (b : A) (f : A -> M (S * list P) B) x : m (fst x) = (Ok b, fst x) -> bind (on_list m) f x = f b x.
Proof. intros E. unfold bind, on_list. rewrite E. now destruct x. Qed.

Section SLoop.
Import Model_SList.
Context {T S0 St : Type}.
Variable zero : T.
Notation L := (slist_listing (St := S0) zero).
Lemma slist_each_is {A} give (cb : St -> A -> prog (iop (sop T S0) T) (ires (res T S0) T) (bool * St)) fuel : forall node st x, slist_each zero give cb fuel node st x = each L give cb fuel node st x.
Proof.
  induction fuel as [|fuel IH]; intros node st x; cbn [slist_each each]; auto. rewrite (on_list_same_step (l_more L node) (negb (is_nil node))) by reflexivity. rewrite negb_involutive. destruct (is_nil node); auto.
  apply bind_same; auto. intros a s'. apply bind_same; auto. intros [b st'] s2. destruct b; auto. apply bind_same; auto.
Qed.
Lemma slist_from_head_is {A} give (cb : St -> A -> prog (iop (sop T S0) T) (ires (res T S0) T) (bool * St)) fuel st x : slist_from_head zero give cb fuel st x = from_start L give cb fuel st x.
Proof. unfold slist_from_head, from_start. apply bind_same; auto. intros. apply slist_each_is. Qed.
End SLoop.

Section DLoop.
Import Model_DList.
Context {T S0 St : Type}.
Variable zero : T.
Notation L := (dlist_listing (St := S0) zero).
Notation LS := (dl_spec (St := S0) zero).
Lemma dlist_each_is {A} give (cb : St -> A -> prog (iop (dop T S0) T) (ires (res T S0) T) (bool * St)) fuel : forall n st x, dlist_each zero give cb fuel n st x = each L give cb fuel n st x.
Proof.
  induction fuel as [|fuel IH]; intros n st [[h hdr] vars]; cbn [dlist_each each]; auto. rewrite (on_list_same_step (l_more L n) (negb (peqb n (d_head hdr)))) by reflexivity. rewrite negb_involutive.
  rewrite (on_list_same_step (hget d_head) (d_head hdr)) by reflexivity. destruct (peqb n (d_head hdr)); auto.
  apply bind_same; auto. intros a s'. apply bind_same; auto. intros [b st'] s2. destruct b; auto. apply bind_same; auto.
Qed.
Lemma dlist_from_head_sim {A} give (give' : place -> M (dworld T * list place) A) (cb : St -> A -> prog (iop (dop T S0) T) (ires (res T S0) T) (bool * St)) fr0 k fuel st x y :
  (forall k p q, Proof_DListIter.Rp k p q -> sim know kle (RC know (Proof_DListIter.Rs fr0) Proof_DListIter.Rp) (same know) k (give p) (give' q)) ->
  RC know (Proof_DListIter.Rs fr0) Proof_DListIter.Rp k x y ->
  agree know kle (RC know (Proof_DListIter.Rs fr0) Proof_DListIter.Rp) (same know) k (dlist_from_head zero give cb (S fuel) st x) (from_start LS give' cb (S fuel) st y).
Proof.
  intros Hg Hr. pose proof Hr as [Hs Hv]. destruct x as [[h hdr] vars], y as [w wvars]. cbn [fst snd] in *.
  pose proof Hs as (Em & (Eh & Hz) & fr & Hw & Inj & F0 & R & G). destruct R as (_ & El & Hh). cbn [fst snd] in *. unfold dlist_from_head.
  rewrite (on_list_same_step IsEmpty (d_length hdr =? 0)) by reflexivity. destruct (d_length hdr =? 0) eqn:E0.
  - apply Z.eqb_eq in E0. rewrite E0 in El. assert (En : w_live (dw_list w) = []). { unfold zlen in El. destruct (w_live (dw_list w)); auto. cbn [map length] in El. lia. }
    unfold from_start. rewrite (on_list_same_step (l_iterate LS) (if exists_end w then to_place (first_id (w_live (dw_list w))) else Nowhere)) by reflexivity. rewrite En. cbn [first_id to_place each].
    rewrite (on_list_same_step _ false); [|cbn [fst l_more dl_spec]; unfold pure; destruct (exists_end w) eqn:Ee; auto; now rewrite Ee].
    cbn. exists k. split; [apply kle_refl|]. split; [exact Hr|reflexivity].
  - destruct (d_head hdr) as [hd|] eqn:Ed.
    + assert (E : forall f : ptr -> M _ St, bind (on_list (P := ptr) (hget d_head)) (fun h => bind (on_list (ld_next h)) f) (h, hdr, vars) = bind (on_list (P := ptr) (l_iterate L)) f (h, hdr, vars)).
      { intros f. rewrite (on_list_same_step (hget d_head) (d_head hdr)) by reflexivity. cbn [l_iterate dlist_listing]. unfold Iterate, bind, on_list. cbn [fst snd hget]. rewrite Ed. reflexivity. }
      rewrite E. assert (E2 : bind (on_list (P := ptr) (l_iterate L)) (fun n => dlist_each zero give cb (S fuel) n st) (h, hdr, vars) = from_start L give cb (S fuel) st (h, hdr, vars)).
      { unfold from_start. apply bind_same; auto. intros. apply dlist_each_is. }
      rewrite E2. eapply (from_start_sim L LS know kle kle_refl kle_trans _ _ Proof_DListIter.Rp_le (Proof_DListIter.dlist_sims zero fr0)); eauto. apply kle_refl.
    + exfalso. rewrite Hh in El. apply Z.eqb_neq in E0. cbn in El. auto.
Qed.
End DLoop.
