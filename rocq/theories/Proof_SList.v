From Verif Require Import BaseLemmas Spec Trace Spec_List Nodes Proof_Nodes Model_SList.
From Verif Require Proof_Transform.
Set Default Proof Using "Type".
Local Arguments zlen : simpl never. Local Arguments pload : simpl never. Local Arguments pmod : simpl never.

Section S.
Context {T : Type}.
Variable zero : T.
Notation heap := (list (snode T)).
Notation cells := (list (nat * T)).
Implicit Types (fr : nat -> option (snode T)) (h : heap) (l : cells) (p q : ptr).

Fixpoint chain h p l : Prop :=
  match l with
  | [] => p = None
  | (a, v) :: l' => p = Some a /\ exists q, nth_error h a = Some (mkSNode q v) /\ chain h q l'
  end.
Definition addrs l : list nat := map fst l.
Definition last_ptr l : ptr := match rev l with [] => None | (a, _) :: _ => Some a end.
Definition good fr h l : Prop := NoDup (addrs l) /\ (forall a, In a (addrs l) -> fr a = None) /\ keeps fr h.
Definition rep fr l (s : heap * slist) : Prop :=
  good fr (fst s) l /\ chain (fst s) (s_head (snd s)) l /\ s_tail (snd s) = last_ptr l /\ s_length (snd s) = zlen l.

Lemma chain_addr h l : forall p a, chain h p l -> In a (addrs l) -> (a < length h)%nat.
Proof.
  induction l as [|[b v] l IH]; intros p a C I; [destruct I|]. destruct C as (-> & q & E & C).
  destruct I as [<-|I]; [now apply nth_lt in E|eauto].
Qed.
Lemma chain_frame h h' l : (forall a, In a (addrs l) -> nth_error h' a = nth_error h a) -> forall p, chain h p l -> chain h' p l.
Proof.
  induction l as [|[b v] l IH]; intros F p C; [exact C|]. destruct C as (-> & q & E & C).
  split; auto. exists q. split; [rewrite F; auto; now left|]. apply IH; auto. intros a Ha. apply F. now right.
Qed.
Lemma chain_upd_out h l p a n : ~ In a (addrs l) -> chain h p l -> chain (upd a n h) p l.
Proof. intros NI. apply chain_frame. intros b Hb. apply nth_error_upd_ne. intros ->. auto. Qed.
Lemma chain_app_new h l p n : chain h p l -> chain (h ++ [n]) p l.
Proof.
  intros C. eapply chain_frame; [|exact C]. intros a Ha. apply nth_error_app1. eapply chain_addr; eauto.
Qed.
Lemma chain_snoc h l a b v w : forall p, chain h p (l ++ [(b, w)]) -> NoDup (addrs (l ++ [(b, w)])) -> nth_error h a = Some (mkSNode None v) ->
  ~ In a (addrs (l ++ [(b, w)])) -> chain (upd b (mkSNode (Some a) w) h) p (l ++ [(b, w); (a, v)]).
Proof.
  induction l as [|[c x] l IH]; intros p C ND Ea Na; cbn [app] in *.
  - destruct C as (-> & q & E & _). split; auto. exists (Some a). split; [apply nth_error_upd_eq; now apply nth_lt in E|].
    split; auto. exists None. split; [|reflexivity]. rewrite nth_error_upd_ne; auto. intros ->. apply Na. now left.
  - destruct C as (-> & q & E & C). split; auto. exists q. inversion ND as [|? ? NI ND']; subst. cbn in NI, Na. split.
    + rewrite nth_error_upd_ne; auto. intros ->. apply NI. unfold addrs. rewrite map_app. apply in_app_iff. right. now left.
    + apply IH; auto.
Qed.
Lemma last_ptr_snoc l a v : last_ptr (l ++ [(a, v)]) = Some a.
Proof. unfold last_ptr. rewrite rev_app_distr. reflexivity. Qed.
Lemma snoc_case {A} (l : list A) : l = [] \/ exists (r : list A) (x : A), l = r ++ [x].
Proof. destruct l as [|x l] using rev_ind; eauto. Qed.
Lemma is_nil_last l : is_nil (last_ptr l) = match l with [] => true | _ => false end.
Proof. destruct (snoc_case l) as [->|(l' & [a v] & ->)]; auto. rewrite last_ptr_snoc. destruct l'; auto. Qed.
Lemma fuel_ok fr h l p : good fr h l -> chain h p l -> (length l < S (length h))%nat.
Proof.
  intros (ND & _) C. rewrite <- (map_length fst l). apply nodup_fuel; auto. intros a Ha. eapply chain_addr; eauto.
Qed.
Lemma addrs_app l l' : addrs (l ++ l') = addrs l ++ addrs l'.
Proof. apply map_app. Qed.
Lemma good_new fr h l : good fr h l -> (forall a, In a (addrs l) -> (a < length h)%nat) ->
  ~ In (length h) (addrs l) /\ fr (length h) = None.
Proof. intros (ND & LB & K) B. split; [|now apply keeps_new]. intros I. specialize (B _ I). lia. Qed.

Lemma PushFront_ok fr l s v : rep fr l s ->
  exists s' a, PushFront v s = (Ok tt, s') /\ rep fr ((a, v) :: l) s'.
Proof.
  destruct s as [h [hd tl n]]. intros (G & C & Et & En). cbn in *. subst tl n.
  assert (B : forall a, In a (addrs l) -> (a < length h)%nat) by (intros; eapply chain_addr; eauto).
  destruct (good_new fr h l G B) as [NI L0]. destruct G as (ND & LB & K).
  unfold PushFront, bind, hget, hmod, pnew, ret. cbn. rewrite is_nil_last.
  destruct l as [|c l]; cbn; eexists _, (length h); (split; [reflexivity|]); unfold rep, good; cbn.
  - split; [|split; [|split]]; auto.
    + split; [constructor; auto; constructor|]. split; [intros a [<-|[]]; auto|now apply keeps_app].
    + split; auto. exists hd. split; [apply nth_app_new|exact C].
  - split; [|split; [|split]].
    + split; [constructor; auto|]. split; [intros a [<-|I]; auto|now apply keeps_app].
    + split; auto. exists hd. split; [apply nth_app_new|exact (chain_app_new h (c :: l) hd _ C)].
    + unfold last_ptr. cbn. destruct (rev l ++ [c]) as [|x y] eqn:E; [destruct (rev l); discriminate|]. reflexivity.
    + rewrite !zlen_cons. lia.
Qed.

Lemma PushBack_ok fr l s v : rep fr l s ->
  exists s' a, PushBack v s = (Ok tt, s') /\ rep fr (l ++ [(a, v)]) s'.
Proof.
  destruct s as [h [hd tl n]]. intros (G & C & Et & En). cbn in *. subst tl n.
  assert (B : forall a, In a (addrs l) -> (a < length h)%nat) by (intros; eapply chain_addr; eauto).
  destruct (good_new fr h l G B) as [NI L0]. destruct G as (ND & LB & K).
  exists (if is_nil (last_ptr l) then (h ++ [mkSNode None v], mkSList (Some (length h)) (Some (length h)) (zlen l + 1))
     else (match last_ptr l with Some b => upd b (mkSNode (Some (length h)) (match rev l with (_, w) :: _ => w | [] => v end)) (h ++ [mkSNode None v]) | None => h end,
           mkSList hd (Some (length h)) (zlen l + 1))), (length h).
  unfold PushBack, bind, hget, hmod, pnew, ret. cbn.
  destruct (snoc_case l) as [->|(l' & [b w] & ->)].
  - cbn in C. subst hd. cbn. split; [reflexivity|]. unfold rep, good. cbn. split; [|split; [|split]]; auto.
    + split; [repeat constructor; auto|]. split; [intros a [<-|[]]; auto|now apply keeps_app].
    + split; auto. exists None. split; [apply nth_app_new|auto].
  - rewrite last_ptr_snoc, rev_app_distr. cbn.
    assert (Eb : exists q, nth_error h b = Some (mkSNode q w)).
    { clear - C. revert hd C. induction l' as [|[c x] l' IH]; intros hd C; cbn in C; destruct C as (_ & q & E & C); eauto. }
    destruct Eb as (q & Eb). rewrite (pmod_ok _ _ b (mkSNode q w)) by (now apply nth_app_old). cbn.
    assert (Hn : is_nil hd = false) by (destruct l' as [|[c x] l']; cbn in C; destruct C as (-> & _); auto).
    rewrite Hn. split; [reflexivity|]. unfold rep, good. cbn. split; [|split; [|split]].
    + rewrite addrs_app. cbn. split; [|split].
      * apply Permutation_NoDup with (length h :: addrs (l' ++ [(b, w)])); [|constructor; auto].
        apply Permutation_cons_append.
      * intros a I. apply in_app_iff in I as [I|[<-|[]]]; auto.
      * apply keeps_upd; [now apply keeps_app|]. apply LB. rewrite addrs_app. apply in_app_iff. right. now left.
    + rewrite <- app_assoc. cbn. apply chain_snoc; auto; [now apply chain_app_new|apply nth_app_new].
    + now rewrite last_ptr_snoc.
    + rewrite !zlen_app. reflexivity.
Qed.

Lemma last_ptr_cons c d l : last_ptr (c :: d :: l) = last_ptr (d :: l).
Proof.
  destruct (snoc_case (d :: l)) as [E|(l' & [a v] & E)]; [discriminate|]. rewrite E, app_comm_cons, !last_ptr_snoc. reflexivity.
Qed.
Lemma PopFront_ok fr a v l s : rep fr ((a, v) :: l) s ->
  exists s', PopFront s = (Ok v, s') /\ rep fr l s' /\ fst s' = fst s.
Proof.
  destruct s as [h [hd tl n]]. intros (G & C & Et & En). cbn in C, Et, En. subst tl n. destruct C as (-> & q & E & C).
  destruct G as (ND & LB & K). unfold PopFront, IsEmpty, bind, hget, hmod, ret. cbn [snd fst s_length s_head].
  assert (Hz : (zlen ((a, v) :: l) =? 0) = false) by (apply Z.eqb_neq; rewrite zlen_cons; pose proof (zlen_nonneg l); lia).
  rewrite Hz. rewrite (pload_ok _ _ a _ E). cbn [s_next s_value fst snd set_s_head s_head s_tail s_length].
  assert (R : rep fr l (h, mkSList q (last_ptr l) (zlen l))).
  { unfold rep, good. cbn. inversion ND; subst. repeat split; auto. intros; apply LB; now right. }
  destruct l as [|[b w] l].
  - cbn in C. subst q. cbn [is_nil]. rewrite (pload_ok _ _ a _ E). eexists; split; [reflexivity|split; [exact R|reflexivity]].
  - assert (is_nil q = false) as -> by (destruct C as (-> & _); auto). rewrite (pload_ok _ _ a _ E). eexists; split; [reflexivity|].
    unfold set_s_length, set_s_head. cbn [s_head s_tail s_length].
    cbn [fst snd s_head s_tail s_length]. rewrite last_ptr_cons. replace (zlen ((a, v) :: (b, w) :: l) - 1) with (zlen ((b, w) :: l)) by (rewrite (zlen_cons (a, v)); lia). split; [exact R|reflexivity].
Qed.

Lemma Reverse_loop_ok fr hdr l : forall acc h fuel p q,
  good fr h (rev acc ++ l) -> chain h p l -> chain h q acc -> (length l < fuel)%nat ->
  exists h' q', Reverse_loop fuel p q (last_ptr acc) (h, hdr) = (Ok (q', last_ptr (rev l ++ acc)), (h', hdr)) /\
    good fr h' (rev l ++ acc) /\ chain h' q' (rev l ++ acc).
Proof.
  induction l as [|[a v] l IH]; intros acc h fuel p q G Cp Cq F; (destruct fuel as [|fuel]; [cbn in F; lia|]); cbn [Reverse_loop].
  - cbn in Cp. subst p. cbn. exists h, q. split; [reflexivity|]. split; auto.
    rewrite app_nil_r in G. destruct G as (ND & LB & K). unfold good, addrs in *. rewrite map_rev in *. split; [|split; auto].
    + rewrite <- (rev_involutive (map fst acc)). now apply NoDup_rev.
    + intros b I. apply LB. now rewrite <- in_rev.
  - destruct Cp as (-> & r & E & Cp). cbn [is_nil]. unfold bind at 1. rewrite (pload_ok _ _ a _ E). unfold bind at 1.
    rewrite (pmod_ok _ _ a _ _ E). cbn [s_next]. unfold set_s_next at 1. cbn [s_value].
    destruct G as (ND & LB & K). unfold good in *.
    assert (NIl : ~ In a (addrs l)) by (rewrite addrs_app in ND; cbn in ND; apply NoDup_remove_2 in ND; intros I; apply ND; apply in_app_iff; now right).
    assert (NIa : ~ In a (addrs acc)).
    { rewrite addrs_app in ND. cbn in ND. apply NoDup_remove_2 in ND. intros I. apply ND. apply in_app_iff. left.
      unfold addrs. rewrite map_rev. now rewrite <- in_rev. }
    assert (La : (a < length h)%nat) by (now apply nth_lt in E).
    specialize (IH ((a, v) :: acc) (upd a (mkSNode q v) h) fuel r (Some a)).
    assert (Tl : (if is_nil (last_ptr acc) then Some a else last_ptr acc) = last_ptr ((a, v) :: acc)).
    { rewrite is_nil_last. destruct acc; auto. now rewrite last_ptr_cons. }
    match goal with |- context[Reverse_loop fuel r (Some a) ?t] => replace t with (last_ptr ((a, v) :: acc)) by (symmetry; exact Tl) end. cbn [rev]. rewrite <- app_assoc. apply IH.
    + cbn [rev]. rewrite <- app_assoc. cbn. split; auto. split; auto. apply keeps_upd; auto. apply LB. rewrite addrs_app. apply in_app_iff. right. now left.
    + now apply chain_upd_out.
    + split; auto. exists q. split; [now apply nth_error_upd_eq|now apply chain_upd_out].
    + cbn in F. lia.
Qed.

Lemma Reverse_ok fr l s : rep fr l s -> exists s', Reverse s = (Ok tt, s') /\ rep fr (rev l) s'.
Proof.
  destruct s as [h [hd tl n]]. intros (G & C & Et & En). cbn in G, C, Et, En.
  destruct (Reverse_loop_ok fr (mkSList hd tl n) l [] h (S (length h)) hd None G C eq_refl (fuel_ok _ _ _ _ G C)) as (h' & q' & E & G' & C').
  unfold Reverse, heap_fuel. unfold bind at 1. cbn [fst]. unfold bind at 1. cbn [hget fst snd s_head]. unfold bind at 1.
  change (last_ptr []) with (@None nat) in E. rewrite E. cbn.
  rewrite app_nil_r in *. eexists. split; [reflexivity|]. split; [exact G'|]. split; [exact C'|]. split; auto.
  cbn. rewrite En. unfold zlen. now rewrite rev_length.
Qed.

Lemma Values_loop_ok hdr h l : forall fuel p done rest, chain h p l -> (length l < fuel)%nat -> length rest = length l ->
  Values_loop fuel p (zlen done) (done ++ rest) (h, hdr) = (Ok (done ++ map snd l), (h, hdr)).
Proof.
  induction l as [|[a v] l IH]; intros fuel p done rest C F L; (destruct fuel as [|fuel]; [cbn in F; lia|]); cbn [Values_loop].
  - cbn in C. subst p. destruct rest; [|discriminate]. reflexivity.
  - destruct C as (-> & q & E & C). cbn [is_nil]. unfold bind at 1. rewrite (pload_ok _ _ a _ E). cbn [s_next s_value].
    destruct rest as [|x rest]; [discriminate|].
    unfold bind, lift_o, at_. rewrite Proof_Transform.zget_mid. cbn [map snd].
    rewrite Proof_Transform.zupd_mid, Proof_Transform.snoc_assoc, <- Proof_Transform.zlen_snoc with (x := v). rewrite IH; auto.
    + now rewrite <- app_assoc.
    + cbn in F. lia.
Qed.
Lemma Values_ok fr l s : rep fr l s -> Values zero s = (Ok (map snd l), s).
Proof.
  destruct s as [h [hd tl n]]. intros (G & C & Et & En). cbn in G, C, Et, En. subst n.
  unfold Values, heap_fuel, Len, hget, bind, ret. cbn [fst snd s_length s_head].
  destruct (Z.ltb_spec (zlen l) 0); [pose proof (zlen_nonneg l); lia|].
  cbn [fst snd s_head]. replace (Z.to_nat (zlen l)) with (length l) by (unfold zlen; now rewrite Nat2Z.id).
  change 0 with (zlen (@nil T)). change (repeat zero (length l)) with ([] ++ repeat zero (length l)).
  rewrite Values_loop_ok with (l := l); auto; [eapply fuel_ok; eauto|apply repeat_length].
Qed.
Lemma ForEach_ok {St} (cb : St -> T -> St) fr l s st : rep fr l s -> ForEach cb st s = (Ok (fold_left cb (map snd l) st), s).
Proof.
  destruct s as [h hdr]. intros (G & C & _). cbn in G, C. pose proof (fuel_ok _ _ _ _ G C) as F.
  unfold ForEach, heap_fuel, hget, bind at 1 2. cbn [fst snd]. clear G. revert C F. generalize (s_head hdr) as p, (S (length h)) as fuel. revert st.
  induction l as [|[a v] l IH]; intros st p fuel C F; (destruct fuel as [|fuel]; [cbn in F; lia|]); cbn [ForEach_loop].
  - cbn in C. subst p. reflexivity.
  - destruct C as (-> & q & E & C). cbn [is_nil]. unfold bind. rewrite (pload_ok _ _ a _ E). cbn [s_next s_value map snd fold_left]. rewrite (pload_ok _ _ a _ E). apply IH; auto. cbn in F. lia.
Qed.
Lemma ForEachIf_ok {St} (cb : St -> T -> bool * St) fr l s st : rep fr l s -> ForEachIf cb st s = (Ok (fold_while cb st (map snd l)), s).
Proof.
  destruct s as [h hdr]. intros (G & C & _). cbn in G, C. pose proof (fuel_ok _ _ _ _ G C) as F.
  unfold ForEachIf, heap_fuel, hget, bind at 1 2. cbn [fst snd]. clear G. revert C F. generalize (s_head hdr) as p, (S (length h)) as fuel. revert st.
  induction l as [|[a v] l IH]; intros st p fuel C F; (destruct fuel as [|fuel]; [cbn in F; lia|]); cbn [ForEachIf_loop].
  - cbn in C. subst p. reflexivity.
  - destruct C as (-> & q & E & C). cbn [is_nil]. unfold bind. rewrite (pload_ok _ _ a _ E). cbn [s_next s_value map snd fold_while].
    destruct (cb st v) as [[] st1]; cbn [negb]; [|reflexivity]. rewrite (pload_ok _ _ a _ E). apply IH; auto. cbn in F. lia.
Qed.

(** Replacing values keeps the shape. *)
Fixpoint set_values l (vs : list T) : cells :=
  match l, vs with
  | (a, _) :: l', v :: vs' => (a, v) :: set_values l' vs'
  | _, _ => []
  end.
Lemma set_values_snd l : forall vs, length vs = length l -> map snd (set_values l vs) = vs.
Proof. induction l as [|[a v] l IH]; intros [|w vs] L; try discriminate; cbn; auto. f_equal. auto. Qed.
Lemma set_values_addrs l : forall vs, length vs = length l -> addrs (set_values l vs) = addrs l.
Proof. induction l as [|[a v] l IH]; intros [|w vs] L; try discriminate; cbn; auto. f_equal. apply IH. auto. Qed.
Lemma set_values_id l : set_values l (map snd l) = l.
Proof. induction l as [|[a v] l IH]; cbn; auto. now rewrite IH. Qed.
Lemma set_values_length l vs : length vs = length l -> length (set_values l vs) = length l.
Proof. intros L. rewrite <- (map_length fst). change (length (addrs (set_values l vs)) = length l). rewrite (set_values_addrs l vs L). apply map_length. Qed.
Lemma last_addrs l l' : addrs l = addrs l' -> last_ptr l = last_ptr l'.
Proof.
  assert (K : forall k, last_ptr k = match rev (addrs k) with [] => None | a :: _ => Some a end).
  { intros k. unfold last_ptr, addrs. rewrite <- map_rev. destruct (rev k) as [|[b w] r]; auto. }
  intros E. now rewrite !K, E.
Qed.
Lemma good_addrs fr h l l' : addrs l' = addrs l -> good fr h l -> good fr h l'.
Proof. unfold good. intros ->. auto. Qed.
Lemma good_upd fr h l a n : good fr h l -> In a (addrs l) -> good fr (upd a n h) l.
Proof. intros (ND & LB & K) I. split; auto. split; auto. apply keeps_upd; auto. Qed.

Lemma map_st_len {R St} (op : St -> T -> R * St) xs : forall st, length (fst (map_st op st xs)) = length xs.
Proof. induction xs as [|x xs IH]; intros st; cbn; auto. destruct (op st x) as [y st1]. specialize (IH st1). destruct (map_st op st1 xs). cbn in *. auto. Qed.
Lemma map_while_len {St} (op : St -> T -> T * bool * St) xs : forall st, length (fst (map_while op st xs)) = length xs.
Proof.
  induction xs as [|x xs IH]; intros st; cbn; auto. destruct (op st x) as [[y []] st1]; cbn; auto.
  specialize (IH st1). destruct (map_while op st1 xs). cbn in *. auto.
Qed.

Lemma rep_values fr l h h' hdr vs : rep fr l (h, hdr) -> length vs = length l -> good fr h' l ->
  chain h' (s_head hdr) (set_values l vs) -> rep fr (set_values l vs) (h', hdr).
Proof.
  intros (G & C & Et & En) L G' C'. unfold rep. cbn in *. split; [|split; [|split]]; auto.
  - eapply good_addrs; [|exact G']. now apply set_values_addrs.
  - rewrite Et. apply last_addrs. symmetry. now apply set_values_addrs.
  - unfold zlen in *. now rewrite set_values_length.
Qed.

Lemma ForEachMutable_loop_ok {St} (cb : St -> T -> T * St) fr hdr l : forall h st p fuel,
  good fr h l -> chain h p l -> (length l < fuel)%nat ->
  exists h', ForEachMutable_loop cb fuel p st (h, hdr) = (Ok (snd (map_st cb st (map snd l))), (h', hdr)) /\
    good fr h' l /\ chain h' p (set_values l (fst (map_st cb st (map snd l)))) /\ (forall b, ~ In b (addrs l) -> nth_error h' b = nth_error h b).
Proof.
  induction l as [|[a v] l IH]; intros h st p fuel G C F; (destruct fuel as [|fuel]; [cbn in F; lia|]); cbn [ForEachMutable_loop].
  - cbn in C. subst p. exists h. cbn. auto.
  - destruct C as (-> & q & E & C). cbn [is_nil]. unfold bind at 1. rewrite (pload_ok _ _ a _ E). cbn [s_next s_value map snd map_st].
    destruct (cb st v) as [w st1]. unfold bind at 1. rewrite (pmod_ok _ _ a _ _ E). unfold set_s_value. cbn [s_next].
    assert (La : (a < length h)%nat) by (now apply nth_lt in E).
    unfold bind at 1. rewrite (pload_ok _ _ a (mkSNode q w)) by (now apply nth_error_upd_eq). cbn [s_next].
    assert (G1 : good fr (upd a (mkSNode q w) h) ((a, v) :: l)) by (apply good_upd; auto; now left).
    destruct G as (ND & LB & K). inversion ND as [|? ? NI ND']; subst.
    destruct (IH (upd a (mkSNode q w) h) st1 q fuel) as (h' & EQ & G' & C' & FR).
    { destruct G1 as (_ & LB1 & K1). split; auto. split; auto. intros; apply LB1; now right. }
    { now apply chain_upd_out. }
    { cbn in F. lia. }
    exists h'. rewrite EQ. destruct (map_st cb st1 (map snd l)) as [ys st2] eqn:EM. cbn [fst snd set_values] in *. split; auto.
    split; [|split].
    + destruct G' as (ND2 & LB2 & K2). split; auto.
    + split; auto. exists q. split; auto. rewrite FR by auto. now apply nth_error_upd_eq.
    + intros b NB. rewrite FR by (intros I; apply NB; now right). apply nth_error_upd_ne. intros ->. apply NB. now left.
Qed.
Lemma ForEachMutable_ok {St} (cb : St -> T -> T * St) fr l s st : rep fr l s ->
  exists s', ForEachMutable cb st s = (Ok (snd (map_st cb st (map snd l))), s') /\ rep fr (set_values l (fst (map_st cb st (map snd l)))) s'.
Proof.
  destruct s as [h hdr]. intros R. pose proof R as (G & C & _). cbn in G, C.
  destruct (ForEachMutable_loop_ok cb fr hdr l h st _ _ G C (fuel_ok _ _ _ _ G C)) as (h' & E & G' & C' & _).
  exists (h', hdr). split; [exact E|]. eapply rep_values; eauto. now rewrite map_st_len, map_length.
Qed.
Lemma ForEachMutableIf_loop_ok {St} (cb : St -> T -> T * bool * St) fr hdr l : forall h st p fuel,
  good fr h l -> chain h p l -> (length l < fuel)%nat ->
  exists h', ForEachMutableIf_loop cb fuel p st (h, hdr) = (Ok (snd (map_while cb st (map snd l))), (h', hdr)) /\
    good fr h' l /\ chain h' p (set_values l (fst (map_while cb st (map snd l)))) /\ (forall b, ~ In b (addrs l) -> nth_error h' b = nth_error h b).
Proof.
  induction l as [|[a v] l IH]; intros h st p fuel G C F; (destruct fuel as [|fuel]; [cbn in F; lia|]); cbn [ForEachMutableIf_loop].
  - cbn in C. subst p. exists h. cbn. auto.
  - destruct C as (-> & q & E & C). cbn [is_nil]. unfold bind at 1. rewrite (pload_ok _ _ a _ E). cbn [s_next s_value map snd map_while].
    destruct (cb st v) as [[w go] st1]. unfold bind at 1. rewrite (pmod_ok _ _ a _ _ E). unfold set_s_value. cbn [s_next].
    assert (La : (a < length h)%nat) by (now apply nth_lt in E).
    assert (G1 : good fr (upd a (mkSNode q w) h) ((a, v) :: l)) by (apply good_upd; auto; now left).
    destruct G as (ND & LB & K). inversion ND as [|? ? NI ND']; subst.
    destruct go; cbn [negb].
    + unfold bind at 1. rewrite (pload_ok _ _ a (mkSNode q w)) by (now apply nth_error_upd_eq). cbn [s_next].
      destruct (IH (upd a (mkSNode q w) h) st1 q fuel) as (h' & EQ & G' & C' & FR).
      { destruct G1 as (_ & LB1 & K1). split; auto. split; auto. intros; apply LB1; now right. }
      { now apply chain_upd_out. }
      { cbn in F. lia. }
      exists h'. rewrite EQ. destruct (map_while cb st1 (map snd l)) as [ys st2] eqn:EM. cbn [fst snd set_values] in *. split; auto.
      split; [|split].
      * destruct G' as (ND2 & LB2 & K2). split; auto.
      * split; auto. exists q. split; auto. rewrite FR by auto. now apply nth_error_upd_eq.
      * intros b NB. rewrite FR by (intros I; apply NB; now right). apply nth_error_upd_ne. intros ->. apply NB. now left.
    + exists (upd a (mkSNode q w) h). cbn [fst snd set_values]. rewrite set_values_id. split; auto. split; auto. split.
      * split; auto. exists q. split; [now apply nth_error_upd_eq|now apply chain_upd_out].
      * intros b NB. apply nth_error_upd_ne. intros ->. apply NB. now left.
Qed.
Lemma ForEachMutableIf_ok {St} (cb : St -> T -> T * bool * St) fr l s st : rep fr l s ->
  exists s', ForEachMutableIf cb st s = (Ok (snd (map_while cb st (map snd l))), s') /\ rep fr (set_values l (fst (map_while cb st (map snd l)))) s'.
Proof.
  destruct s as [h hdr]. intros R. pose proof R as (G & C & _). cbn in G, C.
  destruct (ForEachMutableIf_loop_ok cb fr hdr l h st _ _ G C (fuel_ok _ _ _ _ G C)) as (h' & E & G' & C' & _).
  exists (h', hdr). split; [exact E|]. eapply rep_values; eauto. now rewrite map_while_len, map_length.
Qed.

(** *** Iterators *)
Lemma advance_ok hdr h l : forall i p, chain h p l -> (i <= length l)%nat ->
  exists q, advance i p (h, hdr) = (Ok q, (h, hdr)) /\ chain h q (skipn i l).
Proof.
  induction l as [|[a v] l IH]; intros i p C L.
  - cbn in L. replace i with 0%nat by lia. exists p. auto.
  - destruct i as [|i]; [exists p; auto|]. destruct C as (-> & q & E & C). cbn [advance]. unfold bind at 1, MoveToNext, bind at 1.
    rewrite (pload_ok _ _ a _ E). cbn [s_next ret]. apply IH; auto. cbn in L. lia.
Qed.
Lemma advance_past hdr h l : forall i p, chain h p l -> (length l < i)%nat -> advance i p (h, hdr) = (Panic, (h, hdr)).
Proof.
  induction l as [|[a v] l IH]; intros i p C L; (destruct i as [|i]; [cbn in L; lia|]); cbn [advance].
  - cbn in C. subst p. reflexivity.
  - destruct C as (-> & q & E & C). unfold bind at 1, MoveToNext, bind at 1. rewrite (pload_ok _ _ a _ E). cbn [s_next ret].
    apply IH; auto. cbn in L. lia.
Qed.
Lemma iter_loop_ok hdr h l : forall fuel p seen, chain h p l -> (length l < fuel)%nat ->
  iter_loop fuel p seen (h, hdr) = (Ok (seen ++ map snd l), (h, hdr)).
Proof.
  induction l as [|[a v] l IH]; intros fuel p seen C F; (destruct fuel as [|fuel]; [cbn in F; lia|]); cbn [iter_loop].
  - cbn in C. subst p. cbn. now rewrite app_nil_r.
  - destruct C as (-> & q & E & C). unfold bind at 1. cbn [IsNotEnd ret is_nil negb]. unfold bind at 1, Value, bind at 1.
    rewrite (pload_ok _ _ a _ E). cbn [s_value ret]. unfold bind at 1, MoveToNext, bind at 1. rewrite (pload_ok _ _ a _ E). cbn [s_next ret].
    rewrite IH; auto; [|cbn in F; lia]. cbn. now rewrite <- app_assoc.
Qed.

(** *** All calls *)
Lemma Front_ok fr l s : rep fr l s -> Front s = (match map snd l with [] => Panic | x :: _ => Ok x end, s).
Proof.
  destruct s as [h [hd tl n]]. intros (G & C & Et & En). cbn in G, C, Et, En. subst n. unfold Front, IsEmpty, bind, hget, ret. cbn [fst snd s_length s_head].
  destruct l as [|[a v] l]; [reflexivity|].
  assert (Hz : (zlen ((a, v) :: l) =? 0) = false) by (apply Z.eqb_neq; rewrite zlen_cons; pose proof (zlen_nonneg l); lia).
  rewrite Hz. destruct C as (-> & q & E & C). rewrite (pload_ok _ _ a _ E). reflexivity.
Qed.
Lemma chain_last h l a v : forall p, chain h p (l ++ [(a, v)]) -> exists q, nth_error h a = Some (mkSNode q v).
Proof. induction l as [|[c x] l IH]; intros p C; cbn in C; destruct C as (_ & q & E & C); eauto. Qed.
Lemma Back_ok fr l s : rep fr l s -> Back s = (match rev (map snd l) with [] => Panic | x :: _ => Ok x end, s).
Proof.
  destruct s as [h [hd tl n]]. intros (G & C & Et & En). cbn in G, C, Et, En. subst n tl. unfold Back, IsEmpty, bind, hget, ret. cbn [fst snd s_length s_tail].
  destruct (snoc_case l) as [->|(l' & [a v] & ->)]; [reflexivity|].
  assert (Hz : (zlen (l' ++ [(a, v)]) =? 0) = false) by (apply Z.eqb_neq; rewrite zlen_app; change (zlen [(a, v)]) with 1; pose proof (zlen_nonneg l'); lia).
  destruct (chain_last _ _ _ _ _ C) as (q & E).
  rewrite Hz, last_ptr_snoc, (pload_ok _ _ a _ E), map_app, rev_app_distr. reflexivity.
Qed.
Lemma chain_nth h l : forall p i a v, chain h p l -> nth_error l i = Some (a, v) -> exists q, nth_error h a = Some (mkSNode q v).
Proof.
  induction l as [|[c x] l IH]; intros p i a v C E; [destruct i; discriminate|]. destruct C as (_ & q & Ec & C).
  destruct i as [|i]; [injection E as <- <-; eauto|]. eauto.
Qed.
Lemma IterGet_ok fr l s i : rep fr l s ->
  (it <- Iterate ;; it' <- advance i it ;; Value it') s = (match nth_error (map snd l) i with Some v => Ok v | None => Panic end, s).
Proof.
  destruct s as [h hdr]. intros (G & C & _). cbn in G, C. unfold Iterate, hget, bind at 1. cbn [snd]. unfold bind at 1.
  rewrite nth_error_map. destruct (Nat.lt_trichotomy i (length l)) as [L|[L|L]].
  - destruct (advance_ok hdr h l i _ C) as (q & E & Cq); [lia|]. rewrite E. destruct (nth_error l i) as [[a v]|] eqn:En; [|apply nth_error_None in En; lia].
    cbn. destruct (skipn i l) as [|[b w] r] eqn:Es.
    + apply (f_equal (@length _)) in Es. rewrite skipn_length in Es. cbn in Es. lia.
    + assert ((b, w) = (a, v)) as [= -> ->].
      { pose proof (nth_error_split l i En) as (l1 & l2 & -> & <-). rewrite skipn_app, skipn_all, Nat.sub_diag in Es. cbn in Es. congruence. }
      destruct Cq as (-> & q' & E' & _). unfold Value, bind. rewrite (pload_ok _ _ a _ E'). reflexivity.
  - destruct (advance_ok hdr h l i _ C) as (q & E & Cq); [lia|]. rewrite E. subst i. rewrite skipn_all in Cq. cbn in Cq. subst q.
    destruct (nth_error l (length l)) eqn:En; [assert (length l < length l)%nat by (apply nth_error_Some; congruence); lia|]. reflexivity.
  - rewrite (advance_past hdr h l i _ C L). destruct (nth_error l i) eqn:En; [assert (i < length l)%nat by (apply nth_error_Some; congruence); lia|]. reflexivity.
Qed.
Lemma set_values_upd l i v : forall a w, nth_error l i = Some (a, w) -> NoDup (addrs l) ->
  forall h p q, chain h p l -> nth_error h a = Some (mkSNode q w) -> chain (upd a (mkSNode q v) h) p (set_values l (upd i v (map snd l))).
Proof.
  revert i. induction l as [|[b x] l IH]; intros i a w En ND h p q C Ea; [destruct i; discriminate|].
  destruct C as (-> & r & E & C). inversion ND as [|? ? NI ND']; subst. destruct i as [|i].
  - injection En as -> ->. cbn [map snd upd set_values]. rewrite set_values_id. split; auto. rewrite Ea in E. injection E as ->.
    exists r. split; [apply nth_error_upd_eq; now apply nth_lt in Ea|now apply chain_upd_out].
  - cbn [map snd upd set_values]. split; auto. exists r. split; [|eapply IH; eauto].
    rewrite nth_error_upd_ne; auto. intros ->. apply NI. cbn [nth_error] in En. apply nth_error_In in En. apply (in_map fst) in En. exact En.
Qed.
Lemma IterSet_ok fr l s i v : rep fr l s -> exists s' l',
  (it <- Iterate ;; it' <- advance i it ;; Pointer_store it' v) s = (match nth_error (map snd l) i with Some _ => Ok tt | None => Panic end, s') /\
  rep fr l' s' /\ map snd l' = upd i v (map snd l) /\ addrs l' = addrs l.
Proof.
  destruct s as [h hdr]. intros R. pose proof R as (G & C & _). cbn in G, C. unfold Iterate, hget, bind at 1. cbn [snd]. unfold bind at 1.
  rewrite nth_error_map. destruct (Nat.lt_trichotomy i (length l)) as [L|[L|L]].
  - destruct (advance_ok hdr h l i _ C) as (q & E & Cq); [lia|]. rewrite E. destruct (nth_error l i) as [[a w]|] eqn:En; [|apply nth_error_None in En; lia].
    cbn [option_map]. destruct (skipn i l) as [|[b x] r] eqn:Es.
    + apply (f_equal (@length _)) in Es. rewrite skipn_length in Es. cbn in Es. lia.
    + assert ((b, x) = (a, w)) as [= -> ->].
      { pose proof (nth_error_split l i En) as (l1 & l2 & -> & <-). rewrite skipn_app, skipn_all, Nat.sub_diag in Es. cbn in Es. congruence. }
      destruct Cq as (-> & q' & E' & _). unfold Pointer_store. rewrite (pmod_ok _ _ a _ _ E'). unfold set_s_value. cbn [s_next].
      assert (LL : length (upd i v (map snd l)) = length l) by (now rewrite upd_length, map_length).
      exists (upd a (mkSNode q' v) h, hdr), (set_values l (upd i v (map snd l))). split; auto. split; [|split; [now apply set_values_snd|now apply set_values_addrs]].
      eapply rep_values; eauto; [|eapply set_values_upd; eauto; apply G].
      apply good_upd; auto. apply nth_error_In in En. apply (in_map fst) in En. exact En.
  - destruct (advance_ok hdr h l i _ C) as (q & E & Cq); [lia|]. rewrite E. subst i. rewrite skipn_all in Cq. cbn in Cq. subst q.
    destruct (nth_error l (length l)) eqn:En; [assert (length l < length l)%nat by (apply nth_error_Some; congruence); lia|].
    exists (h, hdr), l. rewrite upd_ge by (rewrite map_length; lia). auto.
  - rewrite (advance_past hdr h l i _ C L). destruct (nth_error l i) eqn:En; [assert (i < length l)%nat by (apply nth_error_Some; congruence); lia|].
    exists (h, hdr), l. rewrite upd_ge by (rewrite map_length; lia). auto.
Qed.

Definition Rel (fr : nat -> option (snode T)) (xs : list T) (s : heap * slist) : Prop := exists l, map snd l = xs /\ rep fr l s.
(** Where the cells are after a call; popping and clearing leave the heap alone. *)
Definition moved {St} (o : sop T St) (l l' : cells) (s s' : heap * slist) : Prop :=
  match o with
  | LPushFront _ => exists a, addrs l' = a :: addrs l
  | LPushBack _ => exists a, addrs l' = addrs l ++ [a]
  | LPopFront => addrs l' = tl (addrs l) /\ fst s' = fst s
  | LReverse => addrs l' = rev (addrs l)
  | LClear => l' = [] /\ fst s' = fst s
  | _ => addrs l' = addrs l
  end.
Lemma step_full {St} fr l s (o : sop T St) : rep fr l s -> exists l',
  fst (slist_step zero o s) = fst (slist_spec o (map snd l)) /\ map snd l' = snd (slist_spec o (map snd l)) /\ rep fr l' (snd (slist_step zero o s)) /\ moved o l l' s (snd (slist_step zero o s)).
Proof.
  intros R. destruct o; cbn [slist_step slist_spec moved]; unfold show.
  - destruct (PushFront_ok fr l s v R) as (s' & a & E & R'). rewrite E. cbn. exists ((a, v) :: l). repeat (split; auto). exists a. reflexivity.
  - destruct (PushBack_ok fr l s v R) as (s' & a & E & R'). rewrite E. cbn. exists (l ++ [(a, v)]). split; auto. split; [apply map_app|]. split; auto. exists a. apply addrs_app.
  - destruct l as [|[a v] l].
    + exists []. destruct s as [h [hd tl n]]. pose proof R as (G & C & Et & En). cbn in En. subst n. cbn. auto.
    + destruct (PopFront_ok fr a v l s R) as (s' & E & R' & Eh). rewrite E. cbn. exists l. auto.
  - destruct (Reverse_ok fr l s R) as (s' & E & R'). rewrite E. cbn. exists (rev l). split; auto. split; [apply map_rev|]. split; auto. unfold addrs. apply map_rev.
  - exists []. cbn. split; auto. split; auto. split; auto. destruct R as ((ND & LB & K) & _). unfold rep, good. cbn. repeat split; auto. constructor. intros a [].
  - exists l. pose proof R as (G & C & Et & En). cbn. split; auto. rewrite En. unfold zlen. now rewrite map_length.
  - exists l. pose proof R as (G & C & Et & En). cbn. split; auto. rewrite En. destruct l as [|c l]; auto.
  - exists l. rewrite (Front_ok fr l s R). cbn. split; auto. destruct (map snd l); auto.
  - exists l. rewrite (Back_ok fr l s R). cbn. unfold seq_back. split; auto. destruct (rev (map snd l)); auto.
  - exists l. rewrite (Values_ok fr l s R). auto.
  - exists l. rewrite (ForEach_ok cb fr l s st R). auto.
  - exists l. rewrite (ForEachIf_ok cb fr l s st R). auto.
  - destruct (ForEachMutable_ok cb fr l s st R) as (s' & E & R'). rewrite E. destruct (map_st cb st (map snd l)) as [ys st'] eqn:EM. cbn in *.
    pose proof (map_st_len cb (map snd l) st) as L. rewrite EM, map_length in L. eexists. split; [auto|]. split; [|split; [exact R'|]]; [now apply set_values_snd|now apply set_values_addrs].
  - destruct (ForEachMutableIf_ok cb fr l s st R) as (s' & E & R'). rewrite E. destruct (map_while cb st (map snd l)) as [ys st'] eqn:EM. cbn in *.
    pose proof (map_while_len cb (map snd l) st) as L. rewrite EM, map_length in L. eexists. split; [auto|]. split; [|split; [exact R'|]]; [now apply set_values_snd|now apply set_values_addrs].
  - exists l. destruct s as [h hdr]. pose proof R as (G & C & _). cbn in G, C. unfold iter_all, Iterate, hget, heap_fuel, bind. cbn [fst snd].
    rewrite (iter_loop_ok hdr h l _ _ [] C (fuel_ok _ _ _ _ G C)). auto.
  - exists l. rewrite (IterGet_ok fr l s i R). destruct (nth_error (map snd l) i); auto.
  - destruct (IterSet_ok fr l s i v R) as (s' & l' & E & R' & V & EA). rewrite E. cbn. exists l'. split; [destruct (nth_error (map snd l) i); auto|]. auto.
Qed.
Lemma step_ok {St} fr xs s (o : sop T St) : Rel fr xs s ->
  fst (slist_step zero o s) = fst (slist_spec o xs) /\ Rel fr (snd (slist_spec o xs)) (snd (slist_step zero o s)).
Proof. intros (l & <- & R). destruct (step_full fr l s o R) as (l' & E & V & R' & _). split; auto. exists l'. auto. Qed.
Lemma Rel_init h0 : Rel (nth_error h0) [] (h0, empty_slist).
Proof. exists []. split; auto. unfold rep, good. cbn. repeat split; auto; [constructor|intros a []|apply keeps_refl]. Qed.
Lemma SListOf_ok h0 vs hdr : exists s', SListOf vs (h0, hdr) = (Ok tt, s') /\ Rel (nth_error h0) vs s'.
Proof.
  unfold SListOf, bind at 1, hmod. cbn [fst].
  assert (K : forall vs xs s, Rel (nth_error h0) xs s -> exists s', SListOf_loop vs s = (Ok tt, s') /\ Rel (nth_error h0) (xs ++ vs) s').
  { clear. induction vs as [|v vs IH]; intros xs s R; cbn [SListOf_loop].
    - exists s. rewrite app_nil_r. auto.
    - destruct R as (l & <- & R). destruct (PushBack_ok _ l s v R) as (s1 & a & E & R1). unfold bind. rewrite E.
      destruct (IH (map snd l ++ [v]) s1) as (s2 & E2 & R2); [eexists; split; [|exact R1]; apply map_app|].
      exists s2. rewrite <- app_assoc in R2. auto. }
  apply (K vs [] (h0, empty_slist)). apply Rel_init.
Qed.
Lemma run_ok {St} fr (ops : list (sop T St)) xs s : Rel fr xs s ->
  fst (run (slist_step zero) ops s) = fst (run slist_spec ops xs) /\ Rel fr (snd (run slist_spec ops xs)) (snd (run (slist_step zero) ops s)).
Proof. apply (run_sim (slist_step zero) slist_spec (Rel fr)). intros. now apply step_ok. Qed.
Lemma Rel_keeps fr xs s : Rel fr xs s -> keeps fr (fst s).
Proof. intros (l & _ & (_ & _ & K) & _). exact K. Qed.
End S.
