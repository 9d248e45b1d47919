(** Properties of SkipList for float-like keys, some of which may be NaN, and
    for arbitrary comparisons: C17. *)
From Coq Require Import Sorted Permutation.
From Verif Require Import BaseLemmas Spec Trace Spec_List Spec_Map Nodes Proof_Nodes Model_SkipList Proof_SkipList Proof_Map Proof_SkipListAny Props_SkipList.
Set Default Proof Using "Type".
Local Arguments zlen : simpl never.

(** No call mentions a NaN key. *)
Definition nan_free {K V St} (isnan : K -> bool) (o : mop K V St) : bool :=
  match o with
  | MInsert k _ _ | MRemove k | MFind k | MHas k | MFindSet k _ | MLower k | MUpper k => negb (isnan k)
  | MRange a b => negb (isnan a) && negb (isnan b)
  | _ => true
  end.
(** Impl for any comparisons whatever: NewSkipList with some < and ==, or
    NewSkipListFunc with some comparator; [eq a b] is the test for equal keys. *)
Definition any_kind {K V} (impl : @slimpl K V) (eq : K -> K -> bool) : Prop :=
  (exists ltb, impl = implOrdered ltb eq) \/ (exists cmp, impl = implFunc cmp /\ forall a b, eq a b = (cmp a b =? 0)).
Lemma any_spec {K V} (impl : @slimpl K V) eq : any_kind impl eq -> exists eqk gtk, impl_spec eqk gtk impl /\ forall a b, eqk a b = eq a b.
Proof.
  intros [(ltb & ->)|(cmp & -> & E)]; [exists eq, (fun a b => ltb b a); split; auto using ordered_spec|].
  exists (fun a b => cmp a b =? 0), (fun a b => 0 <? cmp a b). split; [apply func_spec|]. auto.
Qed.
Section Contents.
Context {K V : Type}.
Variables (impl : @slimpl K V) (eq : K -> K -> bool).
Hypothesis Ak : any_kind impl eq.
Lemma fresh_rep (zk : K) (zv : V) h0 l0 : rep (nth_error h0) (length h0) [] (fresh zk zv h0 l0).
Proof. unfold fresh. destruct (init_ok zk zv h0 l0) as (s' & E & R). now rewrite E. Qed.
Lemma rep_walk h0 hd ps (s : list (slnode K V) * sklist) : rep h0 hd ps s -> walk Iterate s = (Ok (kvs ps), s).
Proof. intros R. destruct s as [h l]. rewrite (walk_all h0 hd [] ps); auto. eapply iterate_ok; eauto. Qed.
Lemma rep_lenv h0 hd ps (s : list (slnode K V) * sklist) : rep h0 hd ps s -> fst (Len s) = Ok (zlen (kvs ps)).
Proof. intros R. pose proof (r_len _ _ _ _ R) as E. destruct s as [h l]. cbn in *. rewrite E. unfold zlen, kvs. now rewrite map_length. Qed.
Lemma reach_rep {St} (zk : K) (zv : V) h0 l0 (ops : list (mop K V St)) : exists ps, rep (nth_error h0) (length h0) ps (after impl ops (fresh zk zv h0 l0)).
Proof using Ak.
  destruct (any_spec _ _ Ak) as (eqk & gtk & SP & Ee). destruct (run_any eqk gtk impl SP (nth_error h0) (length h0) ops [] _ (fresh_rep zk zv h0 l0)) as (ps & R & _). eauto.
Qed.
End Contents.

(** *** C17: keys that may be NaN *)
(** As long as no NaN is used the list is the sorted map of C01. *)
Theorem C17_without_nan : forall K V St (ltb eqb : K -> K -> bool) isnan, ordered_nan ltb eqb isnan ->
  forall (zk : K) (zv : V) h0 l0 (ops : list (mop K V St)), forallb (nan_free isnan) ops = true ->
  results (implOrdered ltb eqb) ops (fresh zk zv h0 l0) = fst (run (map_spec ltb) ops []).
Proof.
  intros K V St ltb eqb isnan ON zk zv h0 l0 ops F.
  assert (F' : forallb (good_op (ok_key isnan)) ops = true) by (rewrite <- F; apply forallb_ext; intros []; reflexivity).
  pose proof (lt_top_sw ltb eqb isnan ON) as SW.
  assert (Eq : forall a b, ok_key isnan a = true -> ok_key isnan b = true -> eqb a b = eqv (lt_top ltb isnan) a b) by (intros; now apply (lt_top_eq ltb eqb isnan ON)).
  assert (Gt : forall a b, ok_key isnan a = true -> ok_key isnan b = true -> ltb b a = lt_top ltb isnan b a) by (intros; now rewrite lt_top_lt).
  destruct (run_ok_on eqb (fun a b : K => ltb b a) (implOrdered ltb eqb) (ordered_spec ltb eqb) (lt_top ltb isnan) SW (ok_key isnan) Eq Gt (nth_error h0) ops [] (fresh zk zv h0 l0)) as (E & _); auto.
  - apply fresh_Rel.
  - unfold results. rewrite E. f_equal. apply (run_ext_on _ _ (ok_key isnan)); auto. intros. now apply lt_top_lt.
Qed.
Print Assumptions C17_without_nan.

(** Whatever the comparisons, and whatever is inserted: every call returns
    (only a walk over FindRange may panic), and Len is the number of pairs an
    iteration visits. *)
Theorem C17_structure : forall K V St (impl : @slimpl K V) eq, any_kind impl eq -> forall zk zv h0 l0 (ops : list (mop K V St)),
  Forall2 (fun o r => (exists x, r = Ok x) \/ ((exists a b, o = MRange a b) /\ r = Panic)) ops (results impl ops (fresh zk zv h0 l0)) /\
  (exists m, fst (walk Iterate (after impl ops (fresh zk zv h0 l0))) = Ok m /\ fst (Len (after impl ops (fresh zk zv h0 l0))) = Ok (zlen m)).
Proof.
  intros K V St impl eq Ak zk zv h0 l0 ops. destruct (any_spec _ _ Ak) as (eqk & gtk & SP & Ee). 
  destruct (run_any eqk gtk impl SP (nth_error h0) (length h0) ops [] _ (fresh_rep zk zv h0 l0)) as (ps & R & F). split.
  - unfold results. clear R. induction F as [|o r ops rs H F IH]; constructor; auto. destruct H as [H|[H ->]]; auto. right. split; auto. destruct o; try discriminate H. eauto.
  - exists (kvs ps). split; [|eapply rep_lenv; exact R]. unfold after. now rewrite (rep_walk _ _ _ _ R).
Qed.
Print Assumptions C17_structure.

(** A key that is equal to no key, as NaN: it is never found, removing it does
    nothing, and every Insert of it adds one more pair. *)
Theorem C17_unequal_key : forall K V St (impl : @slimpl K V) eq, any_kind impl eq -> forall k, (forall x, eq x k = false) ->
  forall zk zv h0 l0 (ops : list (mop K V St)) v r, let s := after impl ops (fresh zk zv h0 l0) in
  exists m, fst (walk Iterate s) = Ok m /\
    fst (find_get impl k s) = Ok None /\ fst (Has impl k s) = Ok false /\
    fst (Remove impl k s) = Ok false /\ fst (walk Iterate (snd (Remove impl k s))) = Ok m /\
    fst (Insert impl k v r s) = Ok tt /\
    (exists A B, m = A ++ B /\ fst (walk Iterate (snd (Insert impl k v r s))) = Ok (A ++ (k, v) :: B)) /\
    fst (Len (snd (Insert impl k v r s))) = Ok (zlen m + 1).
Proof.
  intros K V St impl eq Ak k Hk zk zv h0 l0 ops v r s. destruct (any_spec _ _ Ak) as (eqk & gtk & SP & Ee). destruct (reach_rep impl eq Ak zk zv h0 l0 ops) as (ps & R). fold s in R. clearbody s.
  exists (kvs ps). pose proof (rep_walk _ _ _ _ R) as W. split; [now rewrite W|]. destruct s as [h l].
  assert (Ef : findNode impl k (h, l) = (Ok None, (h, l))).
  { destruct (find_any eqk gtk impl SP (nth_error h0) _ ps h l k R) as (p & E & [->|(c & I & -> & Hc)]); auto. rewrite Ee, Hk in Hc. discriminate. }
  split; [unfold find_get, Find, bind; rewrite Ef; reflexivity|].
  split; [unfold Has; rewrite (bind_eq _ _ _ _ _ Ef); reflexivity|].
  destruct (Remove_ok eqk gtk impl SP (nth_error h0) _ ps h l k R) as (A & B & h' & l' & Eps & _ & _ & H).
  assert (Hr : Remove impl k (h, l) = (Ok false, (h', l')) /\ rep (nth_error h0) (length h0) ps (h', l')). { destruct B as [|c B]; auto. rewrite Ee, Hk in H. auto. }
  destruct Hr as [Er Rr]. rewrite Er. split; [reflexivity|]. split; [cbn [snd]; now rewrite (rep_walk _ _ _ _ Rr)|].
  destruct (Insert_ok eqk gtk impl SP (nth_error h0) _ ps h l k v r R) as [(c & h2 & l2 & I & Hc & _)|(A2 & c & B2 & h2 & l2 & -> & Pt & Ek & Ev & _ & NI & E & R')]; [rewrite Ee, Hk in Hc; discriminate|].
  rewrite E. cbn [fst snd]. split; auto. split.
  - exists (kvs A2), (kvs B2). split; [rewrite kvs_app; reflexivity|]. rewrite (rep_walk _ _ _ _ R'). cbn [fst]. unfold kvs. rewrite map_app. cbn. now rewrite Ek, Ev.
  - rewrite (rep_lenv _ _ _ _ R'). f_equal. unfold zlen, kvs. rewrite !map_length, !app_length. cbn. lia.
Qed.
Print Assumptions C17_unequal_key.

(** What Find returns was stored under an equal key; Remove takes out nothing
    but one pair with an equal key; Insert adds one pair or replaces the value
    of one with an equal key. *)
Theorem C17_sound : forall K V St (impl : @slimpl K V) eq, any_kind impl eq ->
  forall zk zv h0 l0 (ops : list (mop K V St)) k v r, let s := after impl ops (fresh zk zv h0 l0) in
  exists m, fst (walk Iterate s) = Ok m /\
    (fst (find_get impl k s) = Ok None \/ exists k' v', In (k', v') m /\ eq k' k = true /\ fst (find_get impl k s) = Ok (Some v')) /\
    ((fst (Remove impl k s) = Ok false /\ fst (walk Iterate (snd (Remove impl k s))) = Ok m) \/
     (exists A k' v' B, m = A ++ (k', v') :: B /\ eq k' k = true /\ fst (Remove impl k s) = Ok true /\ fst (walk Iterate (snd (Remove impl k s))) = Ok (A ++ B))) /\
    fst (Insert impl k v r s) = Ok tt /\
    ((exists A B, m = A ++ B /\ fst (walk Iterate (snd (Insert impl k v r s))) = Ok (A ++ (k, v) :: B)) \/
     (exists A k' v' B, m = A ++ (k', v') :: B /\ eq k' k = true /\ fst (walk Iterate (snd (Insert impl k v r s))) = Ok (A ++ (k', v) :: B))).
Proof.
  intros K V St impl eq Ak zk zv h0 l0 ops k v r s. destruct (any_spec _ _ Ak) as (eqk & gtk & SP & Ee). destruct (reach_rep impl eq Ak zk zv h0 l0 ops) as (ps & R). fold s in R. clearbody s.
  exists (kvs ps). pose proof (rep_walk _ _ _ _ R) as W. split; [now rewrite W|]. destruct s as [h l]. split.
  { unfold find_get. destruct (Find_any eqk gtk impl SP (nth_error h0) _ ps h l k R) as (p & E & [->|(c & I & -> & Hc)]); rewrite (bind_eq _ _ _ _ _ E); cbn [is_nil]; [now left|]. right.
    exists (ck c), (cv c). split; [unfold kvs; apply in_map_iff; eauto|]. split; [now rewrite <- Ee|]. now rewrite (bind_eq _ _ _ _ _ (ld_value_ok _ _ _ _ _ _ (rep_cell _ _ _ _ _ _ R I))). }
  split.
  { destruct (Remove_ok eqk gtk impl SP (nth_error h0) _ ps h l k R) as (A & B & h' & l' & Eps & _ & _ & H).
    destruct B as [|c B]; [|destruct (eqk (ck c) k) eqn:Hc]; [destruct H as [E R']|destruct H as (E & R' & _)|destruct H as [E R']]; rewrite E; cbn [fst snd]; rewrite (rep_walk _ _ _ _ R'); auto.
    right. exists (kvs A), (ck c), (cv c), (kvs B). split; [rewrite Eps; rewrite kvs_app; reflexivity|]. rewrite <- Ee, kvs_app. auto. }
  destruct (Insert_ok eqk gtk impl SP (nth_error h0) _ ps h l k v r R) as [(c & h2 & l2 & I & Hc & E & R')|(A2 & c & B2 & h2 & l2 & -> & Pt & Ek & Ev & _ & NI & E & R')]; rewrite E; cbn [fst snd]; (split; [auto|]); rewrite (rep_walk _ _ _ _ R'); cbn [fst].
  - right. destruct (in_split _ _ I) as (A & B & ->). exists (kvs A), (ck c), (cv c), (kvs B). split; [rewrite kvs_app; reflexivity|]. split; [now rewrite <- Ee|]. f_equal.
    pose proof (rep_nodup _ _ _ _ R) as ND.
    assert (PA : forall X : list (@cell K V), ~ In (ca c) (addrs X) -> put (ca c) v X = X).
    { intros X. induction X as [|x X IH]; auto. cbn. intros N. destruct (Nat.eqb_spec (ca x) (ca c)); [tauto|]. f_equal. apply IH. tauto. }
    rewrite addrs_app in ND. apply NoDup_remove_2 in ND. rewrite in_app_iff in ND.
    unfold put. rewrite map_app. cbn [map]. rewrite Nat.eqb_refl. fold (put (ca c) v A) (put (ca c) v B). rewrite !PA by (unfold addrs; tauto). rewrite kvs_app. reflexivity.
  - left. exists (kvs A2), (kvs B2). split; [rewrite kvs_app; reflexivity|]. unfold kvs. rewrite map_app. cbn. now rewrite Ek, Ev.
Qed.
Print Assumptions C17_sound.

(** The non-NaN keys do not keep behaving as a map once a NaN is inserted: after
    Insert(3), Insert(NaN), with a two-level node for the NaN, the key 3 is in the list but is not found, cannot be removed, and inserting it
    again makes a second pair.  ([None] is the NaN.) *)
Theorem C17_expected_refuted : let s := after (St := unit) (implOrdered nltb neqb) [MInsert (Some 3) 30 (2 ^ 39); MInsert None 99 (2 ^ 38)] (fresh (Some 0) 0 [] (mkSL 0 0 None [])) in
  fst (walk Iterate s) = Ok [(Some 3, 30); (None, 99)] /\ fst (find_get (implOrdered nltb neqb) (Some 3) s) = Ok None /\ fst (Remove (implOrdered nltb neqb) (Some 3) s) = Ok false /\
  fst (walk Iterate (snd (Insert (implOrdered nltb neqb) (Some 3) 31 (2 ^ 39) s))) = Ok [(Some 3, 30); (None, 99); (Some 3, 31)].
Proof. vm_compute. repeat split. Qed.
Print Assumptions C17_expected_refuted.
(** With one-level nodes only, the same calls do find it. *)
Example C17_level_dependent : let s := after (St := unit) (implOrdered nltb neqb) [MInsert (Some 3) 30 (2 ^ 39); MInsert None 99 (2 ^ 39)] (fresh (Some 0) 0 [] (mkSL 0 0 None [])) in
  fst (find_get (implOrdered nltb neqb) (Some 3) s) = Ok (Some 30).
Proof. vm_compute. repeat split. Qed.
Example C17_hyp : ordered_nan nltb neqb isNone /\ any_kind (implOrdered (V := Z) nltb neqb) neqb /\ (forall x, neqb x None = false) /\
  forallb (nan_free isNone) [MInsert (Some 3) 30 1; MInsert (Some 1) 10 1; MRange (Some 1) (Some 3); MFind (St := unit) (Some 1)] = true /\
  results (implOrdered nltb neqb) [MInsert (Some 3) 30 1; MInsert (Some 1) 10 1; MRange (Some 1) (Some 3); MFind (St := unit) (Some 1)] (fresh (Some 0) 0 [] (mkSL 0 0 None [])) =
    [Ok MNone; Ok MNone; Ok (MSeq [(Some 1, 10); (Some 3, 30)]); Ok (MOpt (Some 10))].
Proof. split; [exact optZ_ordered_nan|]. split; [left; exists nltb; reflexivity|]. split; [intros [x|]; reflexivity|]. vm_compute. split; reflexivity. Qed.
