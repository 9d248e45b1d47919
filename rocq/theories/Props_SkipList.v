(** Properties of SkipList (skiplist.go): C01-C14.  [kind impl lt] says that
    impl is what NewSkipList or NewSkipListFunc installs for keys ordered by lt
    (end of Model_SkipList.v); Spec_Map.v has the maps the list is compared with. *)
From Coq Require Import Sorted Permutation.
From Verif Require Import BaseLemmas Spec Trace Spec_List Spec_Map Nodes Proof_Nodes Model_SkipList Proof_SkipList Proof_Map.
From Verif Require Proof_Draws.
Set Default Proof Using "Type".
Local Arguments zlen : simpl never.

(** A new list in a heap h0 that may hold anything else. *)
Definition fresh {K V} (zk : K) (zv : V) h0 l0 := snd (init zk zv (h0, l0)).
Definition after {K V St} (impl : @slimpl K V) (ops : list (mop K V St)) s := snd (run (map_step impl) ops s).
Definition results {K V St} (impl : @slimpl K V) (ops : list (mop K V St)) s := fst (run (map_step impl) ops s).

Section Use.
Context {K V St : Type}.
Variables (impl : @slimpl K V) (lt : K -> K -> bool).
Hypothesis Hk : kind impl lt.
Notation Rel := (Rel lt).
Lemma kind_sw : strict_weak lt.
Proof using Hk. destruct (kind_spec _ _ Hk) as (eqk & gtk & SP & SW & Eq & Gt). exact SW. Qed.
Lemma fresh_Rel (zk : K) (zv : V) h0 l0 : Rel (nth_error h0) [] (fresh zk zv h0 l0).
Proof. unfold fresh. destruct (init_Rel lt zk zv h0 l0) as (s' & E & R). now rewrite E. Qed.
Lemma use_run h0 (ops : list (mop K V St)) m s : Rel h0 m s ->
  results impl ops s = fst (run (map_spec lt) ops m) /\ Rel h0 (snd (run (map_spec lt) ops m)) (after impl ops s).
Proof using Hk. destruct (kind_spec _ _ Hk) as (eqk & gtk & SP & SW & Eq & Gt). apply (run_ok eqk gtk impl SP lt SW Eq Gt). Qed.
Lemma use_call h0 (o : mop K V St) m s : Rel h0 m s -> fst (map_step impl o s) = fst (map_spec lt o m) /\ Rel h0 (snd (map_spec lt o m)) (snd (map_step impl o s)).
Proof using Hk.
  intros R. destruct (use_run h0 [o] m s R) as [E R1]. unfold results, after in *. cbn [run] in *. destruct (map_step impl o s), (map_spec lt o m). cbn in *. split; [congruence|auto].
Qed.
Lemma reach_Rel (zk : K) (zv : V) h0 l0 (ops : list (mop K V St)) : Rel (nth_error h0) (snd (run (map_spec lt) ops [])) (after impl ops (fresh zk zv h0 l0)).
Proof using Hk. apply use_run. apply fresh_Rel. Qed.
End Use.
Lemma Rel_sorted {K V} (lt : K -> K -> bool) h0 (m : list (K * V)) s : Rel lt h0 m s -> ksorted lt m.
Proof. intros (hd & ps & _ & _ & S). exact S. Qed.
Lemma show_ok {S A R} (f : A -> R) (p : M S A) s a : (forall x y, f x = f y -> x = y) -> fst (show f p s) = Ok (f a) -> fst (p s) = Ok a.
Proof. intros I. unfold show. destruct (p s) as [[x| |] s']; cbn; intros H; try discriminate. injection H as H. apply I in H. now subst. Qed.
Lemma show_snd {S A R} (f : A -> R) (p : M S A) s : snd (show f p s) = snd (p s).
Proof. unfold show. now destruct (p s). Qed.
Lemma show_fst {S A R} (f : A -> R) (p : M S A) s : fst (show f p s) = omap f (fst (p s)).
Proof. unfold show. now destruct (p s). Qed.
Section Calls.
Context {K V : Type}.
Variables (impl : @slimpl K V) (lt : K -> K -> bool).
Hypothesis Hk : kind impl lt.
Context (h0 : nat -> option (slnode K V)) (m : list (K * V)) (s : list (slnode K V) * sklist).
Hypothesis R : Rel lt h0 m s.
Ltac inj := let H := fresh in intros ? ? H; now injection H.
Lemma call_iter : fst (walk Iterate s) = Ok m.
Proof using Hk R. destruct (use_call (St := unit) impl lt Hk h0 MIter m s R) as [E _]. eapply show_ok; [|exact E]; inj. Qed.
Lemma call_find k : fst (find_get impl k s) = Ok (lookup lt k m).
Proof using Hk R. destruct (use_call (St := unit) impl lt Hk h0 (MFind k) m s R) as [E _]. eapply show_ok; [|exact E]; inj. Qed.
Lemma call_has k : fst (Has impl k s) = Ok (has lt k m).
Proof using Hk R. destruct (use_call (St := unit) impl lt Hk h0 (MHas k) m s R) as [E _]. eapply show_ok; [|exact E]; inj. Qed.
Lemma call_len : fst (Len s) = Ok (zlen m).
Proof using Hk R. destruct (use_call (St := unit) impl lt Hk h0 MLen m s R) as [E _]. eapply show_ok; [|exact E]; inj. Qed.
Lemma call_empty : fst (IsEmpty s) = Ok (match m with [] => true | _ => false end).
Proof using Hk R. destruct (use_call (St := unit) impl lt Hk h0 MIsEmpty m s R) as [E _]. eapply show_ok; [|exact E]; inj. Qed.
Lemma call_lower k : fst (walk (LowerBound impl k) s) = Ok (filter (fun p => negb (lt (fst p) k)) m).
Proof using Hk R. destruct (use_call (St := unit) impl lt Hk h0 (MLower k) m s R) as [E _]. eapply show_ok; [|exact E]; inj. Qed.
Lemma call_upper k : fst (walk (UpperBound impl k) s) = Ok (filter (fun p => lt k (fst p)) m).
Proof using Hk R. destruct (use_call (St := unit) impl lt Hk h0 (MUpper k) m s R) as [E _]. eapply show_ok; [|exact E]; inj. Qed.
Lemma call_insert k v r : fst (Insert impl k v r s) = Ok tt /\ Rel lt h0 (insert lt k v m) (snd (Insert impl k v r s)).
Proof using Hk R.
  destruct (use_call (St := unit) impl lt Hk h0 (MInsert k v r) m s R) as [E R1]. cbn [map_step map_spec snd fst] in *. rewrite show_fst in E. rewrite show_snd in R1.
  split; auto. destruct (fst (Insert impl k v r s)) as [[]| |]; cbn in E; congruence.
Qed.
Lemma call_clear : fst (Clear s) = Ok tt /\ Rel lt h0 [] (snd (Clear s)).
Proof using Hk R.
  destruct (use_call (St := unit) impl lt Hk h0 MClear m s R) as [E R1]. cbn [map_step map_spec snd fst] in *. rewrite show_fst in E. rewrite show_snd in R1.
  split; auto. destruct (fst (Clear s)) as [[]| |]; cbn in E; congruence.
Qed.
Lemma call_remove k : fst (Remove impl k s) = Ok (has lt k m) /\ Rel lt h0 (remove lt k m) (snd (Remove impl k s)).
Proof using Hk R.
  destruct (use_call (St := unit) impl lt Hk h0 (MRemove k) m s R) as [E R1]. cbn [map_step map_spec snd fst] in *. rewrite show_snd in R1.
  split; auto. eapply show_ok; [|exact E]; inj.
Qed.
End Calls.

(** *** C01: SkipList is a finite map (Ordered keys) *)
Theorem C01_created : forall K V (zk : K) (zv : V) h0 l0, fst (init zk zv (h0, l0)) = Ok tt.
Proof. reflexivity. Qed.
Print Assumptions C01_created.
(** Every call, in any history, returns what the call on a sorted list of pairs
    returns (so there is no panic, except in a FindRange loop with last < first,
    and every loop ends); objects that existed before are not touched. *)
Theorem C01_sorted_map : forall K V St (ltb eqb : K -> K -> bool) (zk : K) (zv : V) h0 l0 (ops : list (mop K V St)),
  ordered ltb eqb ->
  results (implOrdered ltb eqb) ops (fresh zk zv h0 l0) = fst (run (map_spec ltb) ops []) /\
  (forall a n, nth_error h0 a = Some n -> nth_error (fst (after (implOrdered ltb eqb) ops (fresh zk zv h0 l0))) a = Some n).
Proof.
  intros K V St ltb eqb zk zv h0 l0 ops O. assert (Hk : kind (V := V) (implOrdered ltb eqb) ltb) by (left; eauto).
  destruct (use_run _ _ Hk (nth_error h0) ops [] _ (fresh_Rel ltb zk zv h0 l0)) as [E (hd & ps & _ & R & _)]. split; auto. exact (r_keeps _ _ _ _ R).
Qed.
Print Assumptions C01_sorted_map.
(** The same for functions from keys to optional values: Insert sets or
    replaces, Remove deletes and reports whether the key was there, no other key
    is affected; Len is the number of keys that have a value. *)
Definition finite_map {K V} (impl : @slimpl K V) (lt : K -> K -> bool) : Prop := forall (zk : K) (zv : V) h0 l0 (ops : list (fop K V)),
  let s := after impl (map mop_of ops) (fresh zk zv h0 l0) in
  let f := snd (run (fmap_spec lt) ops (fun _ => None)) in
  results impl (map mop_of ops) (fresh zk zv h0 l0) = fst (run (fmap_spec lt) ops (fun _ => None)) /\
  (forall k, fst (find_get impl k s) = Ok (f k) /\ fst (Has impl k s) = Ok (defined (f k))) /\
  (exists ks, enumerates lt ks f) /\ (forall ks, enumerates lt ks f -> fst (Len s) = Ok (zlen ks)) /\
  (exists b, fst (IsEmpty s) = Ok b /\ (b = true <-> forall k, f k = None)).
Lemma finite_map_ok {K V} (impl : @slimpl K V) lt : kind impl lt -> finite_map impl lt.
Proof.
  intros Hk zk zv h0 l0 ops. cbn zeta. pose proof (kind_sw _ _ Hk) as SW.
  destruct (use_run _ _ Hk (nth_error h0) (map mop_of ops) [] _ (fresh_Rel lt zk zv h0 l0)) as [E R].
  destruct (fmap_sim lt SW ops (fun _ => None) []) as [E2 F]; [split; [constructor|reflexivity]|].
  set (f := snd (run (fmap_spec lt) ops (fun _ => None))) in *. set (m := snd (run (map_spec lt) (map mop_of ops) [])) in *.
  split; [now rewrite E|]. split; [|split; [|split]].
  - intros k. rewrite (call_find _ _ Hk (nth_error h0) m _ R), (call_has _ _ Hk (nth_error h0) m _ R), has_lookup. destruct F as [_ F]. now rewrite F.
  - exists (map fst m). now apply enumerates_keys.
  - intros ks H. rewrite (call_len _ _ Hk (nth_error h0) m _ R). f_equal. rewrite (enumerates_len lt SW f ks (map fst m) H (enumerates_keys lt SW f m F)). unfold zlen. now rewrite map_length.
  - eexists. split; [apply (call_empty _ _ Hk (nth_error h0) m _ R)|]. destruct F as [S F]. destruct m as [|[k v] m'] eqn:Em; split; auto; try discriminate.
    intros H. exfalso. specialize (H k). rewrite F in H. cbn in H. unfold lookup in H. cbn in H. now rewrite (eqv_refl lt SW) in H.
Qed.
Theorem C01_finite_map : forall K V (ltb eqb : K -> K -> bool), ordered ltb eqb -> finite_map (V := V) (implOrdered ltb eqb) ltb.
Proof. intros K V ltb eqb O. apply finite_map_ok. left. eauto. Qed.
Print Assumptions C01_finite_map.
Example C01_hyp : ordered Z.ltb Z.eqb /\ let ops := [FInsert 3 30 7; FInsert 1 10 (2 ^ 39); FInsert 3 31 9; FFind 3; FRemove 1; FRemove 1; FFind 1; FFindSet 3 33; FHas 3; FFind 3] in
  fst (run (fmap_spec Z.ltb) ops (fun _ => None)) =
    [Ok MNone; Ok MNone; Ok MNone; Ok (MOpt (Some 31)); Ok (MBool true); Ok (MBool false); Ok (MOpt None); Ok (MBool true); Ok (MBool true); Ok (MOpt (Some 33))] /\
  results (implOrdered Z.ltb Z.eqb) (map mop_of ops) (fresh 0 0 [] (mkSL 0 0 None [])) = fst (run (fmap_spec Z.ltb) ops (fun _ => None)).
Proof. split; [exact Z_ordered|]. split; vm_compute; reflexivity. Qed.

(** *** C02: SkipList is a finite map (custom comparator) *)
Theorem C02_sorted_map : forall K V St (cmp : K -> K -> Z) (zk : K) (zv : V) h0 l0 (ops : list (mop K V St)), three_way cmp ->
  results (implFunc cmp) ops (fresh zk zv h0 l0) = fst (run (map_spec (fun a b => cmp a b <? 0)) ops []) /\
  (forall a n, nth_error h0 a = Some n -> nth_error (fst (after (implFunc cmp) ops (fresh zk zv h0 l0))) a = Some n).
Proof.
  intros K V St cmp zk zv h0 l0 ops T. assert (Hk : kind (V := V) (implFunc cmp) (fun a b => cmp a b <? 0)) by (right; eauto).
  destruct (use_run _ _ Hk (nth_error h0) ops [] _ (fresh_Rel _ zk zv h0 l0)) as [E (hd & ps & _ & R & _)]. split; auto. exact (r_keeps _ _ _ _ R).
Qed.
Print Assumptions C02_sorted_map.
Theorem C02_finite_map : forall K V (cmp : K -> K -> Z), three_way cmp -> finite_map (V := V) (implFunc cmp) (fun a b => cmp a b <? 0).
Proof. intros K V cmp T. apply finite_map_ok. right. eauto. Qed.
Print Assumptions C02_finite_map.
(** Equality of keys in the specification is keyCmp = 0. *)
Theorem C02_equal : forall K (cmp : K -> K -> Z) a b, three_way cmp -> (eqv (fun a b => cmp a b <? 0) a b = true <-> cmp a b = 0).
Proof. intros K cmp a b T. unfold eqv. pose proof (tw_antisym _ T a b). destruct (Z.ltb_spec (cmp a b) 0), (Z.ltb_spec (cmp b a) 0); cbn; split; intros; try discriminate; auto; lia. Qed.
Print Assumptions C02_equal.
Theorem C02_sign_only : forall K V St (cmp cmp' : K -> K -> Z) (zk : K) (zv : V) h0 l0 (ops : list (mop K V St)),
  three_way cmp -> (forall a b, Z.sgn (cmp' a b) = Z.sgn (cmp a b)) ->
  results (implFunc cmp') ops (fresh zk zv h0 l0) = results (implFunc cmp) ops (fresh zk zv h0 l0).
Proof.
  intros K V St cmp cmp' zk zv h0 l0 ops T H. assert (T' : three_way cmp').
  { destruct T as [A Tr]. constructor; [intros a b; rewrite !H; apply A|]. intros a b c H1 H2. pose proof (H a b). pose proof (H b c). pose proof (H a c). pose proof (Tr a b c ltac:(lia) ltac:(lia)). lia. }
  rewrite (proj1 (C02_sorted_map K V St cmp zk zv h0 l0 ops T)), (proj1 (C02_sorted_map K V St cmp' zk zv h0 l0 ops T')).
  f_equal. apply run_ext. intros a b. specialize (H a b). destruct (Z.ltb_spec (cmp' a b) 0), (Z.ltb_spec (cmp a b) 0); auto; lia.
Qed.
Print Assumptions C02_sign_only.
(** Inserting a key equal to the stored k0 keeps k0 and every other key as they
    are, in place, and stores v under k0. *)
Theorem C02_stored_key_kept : forall K V St (cmp : K -> K -> Z) (zk : K) (zv : V) h0 l0 (ops : list (mop K V St)) m k0 v0 k v r, three_way cmp ->
  let s := after (implFunc cmp) ops (fresh zk zv h0 l0) in
  fst (walk Iterate s) = Ok m -> In (k0, v0) m -> cmp k0 k = 0 ->
  exists m', fst (walk Iterate (snd (Insert (implFunc cmp) k v r s))) = Ok m' /\ map fst m' = map fst m /\ In (k0, v) m' /\
    (forall k1 v1, cmp k1 k <> 0 -> (In (k1, v1) m' <-> In (k1, v1) m)).
Proof.
  intros K V St cmp zk zv h0 l0 ops m k0 v0 k v r T. cbn zeta. intros E I Ek. set (lt := fun a b => cmp a b <? 0). assert (Hk : kind (V := V) (implFunc cmp) lt) by (right; eauto).
  pose proof (reach_Rel _ _ Hk zk zv h0 l0 ops) as R. set (m0 := snd (run (map_spec lt) ops [])) in *. set (s := after _ _ _) in *.
  rewrite (call_iter _ _ Hk (nth_error h0) m0 s R) in E. injection E as E. subst m. destruct (call_insert _ _ Hk (nth_error h0) m0 s R k v r) as [_ R1].
  exists (insert lt k v m0). split; [apply (call_iter _ _ Hk (nth_error h0) _ _ R1)|]. apply (C02_equal K cmp _ _ T) in Ek. fold lt in Ek. unfold insert.
  assert (has lt k m0 = true) as -> by (apply has_iff; exists (k0, v0); auto).
  split; [unfold set_value; rewrite map_map; apply map_ext; intros p; now destruct (eqv lt (fst p) k)|].
  split; [apply in_set_value; exists (k0, v0); split; auto; cbn; now rewrite Ek|].
  intros k1 v1 N. rewrite in_set_value. split.
  - intros (q & Iq & Eq). destruct (eqv lt (fst q) k) eqn:Eqv; [|now subst]. injection Eq as -> ->. exfalso. apply N. now apply (C02_equal K cmp _ _ T) in Eqv.
  - intros I1. exists (k1, v1). split; auto. cbn. destruct (eqv lt k1 k) eqn:Eqv; auto. exfalso. apply N. now apply (C02_equal K cmp _ _ T) in Eqv.
Qed.
Print Assumptions C02_stored_key_kept.
(** Keys compared by their tens digit only. *)
Example C02_hyp : let cmp a b := a / 10 - b / 10 in
  three_way cmp /\
  results (implFunc cmp) [MInsert 31 1 5; MInsert 12 2 (2 ^ 38); MInsert 38 3 1; MIter; MFind 33; MRemove 19; MIter] (fresh 0 0 [] (mkSL 0 0 None [])) =
  [Ok MNone; Ok MNone; Ok MNone; Ok (MSeq [(12, 2); (31, 3)]); Ok (MOpt (Some 3)); Ok (MBool true); Ok (MSeq (St := unit) [(31, 3)])].
Proof. cbn zeta. split; [constructor; intros; cbn; lia|vm_compute; reflexivity]. Qed.

Lemma fold_collect {A} (l : list A) : forall acc, fold_left (fun l p => l ++ [p]) l acc = acc ++ l.
Proof. induction l as [|p l IH]; intros acc; cbn; [now rewrite app_nil_r|]. rewrite IH, <- app_assoc. reflexivity. Qed.
(** *** C03: iteration is complete, duplicate free and ascending *)
Theorem C03_iteration : forall K V St impl (lt : K -> K -> bool) (zk : K) (zv : V) h0 l0 (ops : list (mop K V St)), kind impl lt ->
  let s := after impl ops (fresh zk zv h0 l0) in
  exists m, fst (walk Iterate s) = Ok m /\ fst (ForEach (fun l p => l ++ [p]) [] s) = Ok m /\ strictly_sorted_by lt (map fst m) /\
    fst (Len s) = Ok (zlen m) /\
    (forall k v, fst (find_get impl k s) = Ok (Some v) <-> exists k', In (k', v) m /\ lt k' k = false /\ lt k k' = false).
Proof.
  intros K V St impl lt zk zv h0 l0 ops Hk. cbn zeta. pose proof (reach_Rel _ _ Hk zk zv h0 l0 ops) as R. set (m := snd (run (map_spec lt) ops [])) in *. set (s := after _ _ _) in *.
  exists m. split; [apply (call_iter _ _ Hk (nth_error h0) m s R)|]. split; [|split; [|split]].
  - destruct (use_call impl lt Hk (nth_error h0) (MForEach (fun l p => l ++ [p]) []) m s R) as [E _]. cbn [map_step map_spec fst] in E. rewrite show_fst in E.
    destruct (fst (ForEach _ [] s)); cbn in E; try discriminate. injection E as ->. f_equal. apply (fold_collect m []).
  - apply ksorted_nth. apply (Rel_sorted _ _ _ _ R).
  - apply (call_len _ _ Hk (nth_error h0) m s R).
  - intros k v. rewrite (call_find _ _ Hk (nth_error h0) m s R). pose proof (lookup_iff lt (kind_sw _ _ Hk) m k v (Rel_sorted _ _ _ _ R)) as H. split.
    + intros E. injection E as E. apply H in E as (k' & I & E). exists k'. split; auto. now apply eqv_true.
    + intros (k' & I & E). f_equal. apply H. exists k'. split; auto. now apply eqv_true.
Qed.
Print Assumptions C03_iteration.
Example C03_hyp : kind (V := Z) (implOrdered Z.ltb Z.eqb) Z.ltb /\ kind (V := Z) (implFunc Z.sub) Z.ltb /\
  snd (run (map_spec (St := unit) Z.ltb) [MInsert 5 50 1; MInsert 2 20 2; MInsert 9 90 3; MRemove 5; MInsert 7 70 4] []) = [(2, 20); (7, 70); (9, 90)] :> list (Z * Z).
Proof.
  split; [left; exists Z.eqb; split; auto using Z_ordered|]. split; [|reflexivity]. right. exists Z.sub. split; auto. split; [constructor; intros; lia|].
  intros a b. destruct (Z.ltb_spec a b), (Z.ltb_spec (a - b) 0); auto; lia.
Qed.

(** *** C04: results do not depend on the random levels *)
Theorem C04_levels_unobservable : forall K V St impl (lt : K -> K -> bool) (zk zk' : K) (zv zv' : V) h0 h0' l0 l0' (ops1 ops2 : list (mop K V St)), kind impl lt ->
  Forall2 same_call ops1 ops2 -> results impl ops1 (fresh zk zv h0 l0) = results impl ops2 (fresh zk' zv' h0' l0').
Proof.
  intros K V St impl lt zk zk' zv zv' h0 h0' l0 l0' ops1 ops2 Hk F.
  rewrite (proj1 (use_run _ _ Hk (nth_error h0) ops1 [] _ (fresh_Rel lt zk zv h0 l0))), (proj1 (use_run _ _ Hk (nth_error h0') ops2 [] _ (fresh_Rel lt zk' zv' h0' l0'))). now rewrite (run_same_call lt ops1 ops2 F).
Qed.
Print Assumptions C04_levels_unobservable.
(** Two runs whose lists have different levels. *)
Example C04_hyp : let ops1 := [MInsert 1 10 (2 ^ 39); MInsert 2 20 (2 ^ 39)] in let ops2 := [MInsert 1 10 (2 ^ 38); MInsert 2 20 (2 ^ 36)] in
  Forall2 (same_call (St := unit)) ops1 ops2 /\
  sl_level (snd (after (implOrdered Z.ltb Z.eqb) ops1 (fresh 0 0 [] (mkSL 0 0 None [])))) = 1%nat /\
  sl_level (snd (after (implOrdered Z.ltb Z.eqb) ops2 (fresh 0 0 [] (mkSL 0 0 None [])))) = 3%nat.
Proof. cbn zeta. split; [repeat constructor|]. split; vm_compute; reflexivity. Qed.

(** *** C05: LowerBound and UpperBound *)
(** The iterator it stands at the front of B. *)
Definition stands_at {K V} (it : iter) (B : list (K * V)) s : Prop :=
  IsNotEnd it = match B with [] => false | _ => true end /\
  (forall p B', B = p :: B' -> Key it s = (Ok (fst p), s) /\ Value it s = (Ok (snd p), s)) /\
  fst (walk (ret it) s) = Ok B.
Lemma stands_ok {K V} h0 hd A (B : list (@cell K V)) s : rep h0 hd (A ++ B) s -> stands_at (firstp B, None) (kvs B) s.
Proof.
  intros R. destruct s as [h l]. split; [|split].
  - now destruct B.
  - intros p B' E. destruct B as [|c B]; [discriminate|]. injection E as <- <-. assert (I : In c (A ++ c :: B)) by (apply in_app_iff; right; now left).
    unfold Key, Value. cbn [fst firstp snd]. rewrite (ld_key_ok _ _ _ _ _ _ (rep_cell _ _ _ _ _ _ R I)), (ld_value_ok _ _ _ _ _ _ (rep_cell _ _ _ _ _ _ R I)). auto.
  - exact (f_equal fst (walk_all h0 hd A B h l (ret (firstp B, None)) R eq_refl)).
Qed.
Theorem C05_lower_bound : forall K V St impl (lt : K -> K -> bool) (zk : K) (zv : V) h0 l0 (ops : list (mop K V St)) k, kind impl lt ->
  let s := after impl ops (fresh zk zv h0 l0) in
  exists m A B it, fst (walk Iterate s) = Ok m /\ m = A ++ B /\ Forall (fun p => lt (fst p) k = true) A /\ Forall (fun p => lt (fst p) k = false) B /\
    LowerBound impl k s = (Ok it, s) /\ stands_at it B s.
Proof.
  intros K V St impl lt zk zv h0 l0 ops k Hk. cbn zeta. pose proof (reach_Rel _ _ Hk zk zv h0 l0 ops) as R. set (m := snd (run (map_spec lt) ops [])) in *. set (s := after _ _ _) in *.
  pose proof (call_iter _ _ Hk (nth_error h0) m s R) as E. destruct R as (hd & ps & <- & R & S). destruct s as [h l]. destruct (kind_spec _ _ Hk) as (eqk & gtk & SP & SW & Eq & Gt).
  destruct (lower_pos eqk gtk impl SP lt SW Eq Gt (nth_error h0) hd ps h l k R S) as (A & M & B & -> & H1 & H2 & H3 & El).
  exists (kvs (A ++ M ++ B)), (kvs A), (kvs (M ++ B)), (firstp (M ++ B), None). split; auto. split; [apply kvs_app|]. split; auto. split; [|split].
  - rewrite kvs_app. apply Forall_app. split; [eapply Forall_imp; [|exact H2]; intros p H; now apply eqv_true in H as [H _]|eapply Forall_imp; [|exact H3]; intros p H; now apply (lt_asym lt SW)].
  - unfold LowerBound. now rewrite (bind_eq _ _ _ _ _ El).
  - now apply (stands_ok (nth_error h0) hd A).
Qed.
Print Assumptions C05_lower_bound.
Theorem C05_upper_bound : forall K V St impl (lt : K -> K -> bool) (zk : K) (zv : V) h0 l0 (ops : list (mop K V St)) k, kind impl lt ->
  let s := after impl ops (fresh zk zv h0 l0) in
  exists m A B it, fst (walk Iterate s) = Ok m /\ m = A ++ B /\ Forall (fun p => lt k (fst p) = false) A /\ Forall (fun p => lt k (fst p) = true) B /\
    UpperBound impl k s = (Ok it, s) /\ stands_at it B s.
Proof.
  intros K V St impl lt zk zv h0 l0 ops k Hk. cbn zeta. pose proof (reach_Rel _ _ Hk zk zv h0 l0 ops) as R. set (m := snd (run (map_spec lt) ops [])) in *. set (s := after _ _ _) in *.
  pose proof (call_iter _ _ Hk (nth_error h0) m s R) as E. destruct R as (hd & ps & <- & R & S). destruct s as [h l]. destruct (kind_spec _ _ Hk) as (eqk & gtk & SP & SW & Eq & Gt).
  destruct (upper_pos eqk gtk impl SP lt SW Eq Gt (nth_error h0) hd ps h l k R S) as (A & M & B & -> & H1 & H2 & H3 & El).
  exists (kvs (A ++ M ++ B)), (kvs (A ++ M)), (kvs B), (firstp B, None). split; auto. split; [rewrite !kvs_app, app_assoc; reflexivity|]. split; [|split; auto; split].
  - rewrite kvs_app. apply Forall_app. split; [eapply Forall_imp; [|exact H1]; intros p H; now apply (lt_asym lt SW)|eapply Forall_imp; [|exact H2]; intros p H; now apply eqv_true in H as [_ H]].
  - unfold UpperBound. now rewrite (bind_eq _ _ _ _ _ El).
  - apply (stands_ok (nth_error h0) hd (A ++ M)). now rewrite <- app_assoc.
Qed.
Print Assumptions C05_upper_bound.
Example C05_hyp : let s := after (St := unit) (implOrdered Z.ltb Z.eqb) [MInsert 5 50 1; MInsert 2 20 2; MInsert 9 90 3] (fresh 0 0 [] (mkSL 0 0 None [])) in
  fst (walk (LowerBound (implOrdered Z.ltb Z.eqb) 5) s) = Ok [(5, 50); (9, 90)] /\ fst (walk (UpperBound (implOrdered Z.ltb Z.eqb) 5) s) = Ok [(9, 90)] /\
  fst (walk (LowerBound (implOrdered Z.ltb Z.eqb) 10) s) = Ok [] /\ fst (walk (LowerBound (implOrdered Z.ltb Z.eqb) 3) s) = Ok [(5, 50); (9, 90)].
Proof. vm_compute. auto. Qed.

(** *** C06: FindRange is documented as [first, last) *)
(** A pair whose key equals last is yielded, whenever it is stored and last is
    not less than first. *)
Theorem C06_last_is_included : forall K V St impl (lt : K -> K -> bool) (zk : K) (zv : V) h0 l0 (ops : list (mop K V St)) m first last k v, kind impl lt ->
  let s := after impl ops (fresh zk zv h0 l0) in
  fst (walk Iterate s) = Ok m -> In (k, v) m -> lt k last = false -> lt last k = false -> lt last first = false ->
  exists r, fst (walk (FindRange impl first last) s) = Ok r /\ In (k, v) r.
Proof.
  intros K V St impl lt zk zv h0 l0 ops m first last k v Hk. cbn zeta. intros E I H1 H2 H3. pose proof (reach_Rel _ _ Hk zk zv h0 l0 ops) as R. set (m0 := snd (run (map_spec lt) ops [])) in *. set (s := after _ _ _) in *.
  rewrite (call_iter _ _ Hk (nth_error h0) m0 s R) in E. injection E as E. subst m. pose proof (kind_sw _ _ Hk) as SW.
  destruct (use_call (St := unit) impl lt Hk (nth_error h0) (MRange first last) m0 s R) as [Er _]. cbn [map_step map_spec fst] in Er. rewrite show_fst in Er.
  assert (X : existsb (fun p => lt last (fst p) && lt (fst p) first) m0 = false).
  { apply existsb_none. apply Forall_forall. intros p _. destruct (lt last (fst p)) eqn:E1, (lt (fst p) first) eqn:E2; auto. rewrite (sw_trans _ SW _ _ _ E1 E2) in H3. discriminate. }
  rewrite X in Er. eexists. split; [destruct (fst (walk (FindRange impl first last) s)); cbn in Er; try discriminate; injection Er as ->; reflexivity|].
  apply filter_In. split; auto. cbn. rewrite H2, (sw_negtrans _ SW k last first); auto.
Qed.
Print Assumptions C06_last_is_included.
Theorem C06_documented_refuted : let s := after (St := unit) (implOrdered Z.ltb Z.eqb) [MInsert 1 10 1; MInsert 2 20 2; MInsert 3 30 3] (fresh 0 0 [] (mkSL 0 0 None [])) in
  fst (walk (FindRange (implOrdered Z.ltb Z.eqb) 1 2) s) = Ok [(1, 10); (2, 20)] /\ fst (walk (FindRange (implOrdered Z.ltb Z.eqb) 2 2) s) = Ok [(2, 20)].
Proof. vm_compute. auto. Qed.
Print Assumptions C06_documented_refuted.

(** *** C07: what FindRange yields *)
Theorem C07_find_range : forall K V St impl (lt : K -> K -> bool) (zk : K) (zv : V) h0 l0 (ops : list (mop K V St)) m first last, kind impl lt ->
  let s := after impl ops (fresh zk zv h0 l0) in
  fst (walk Iterate s) = Ok m -> lt last first = false ->
  fst (walk (FindRange impl first last) s) = Ok (filter (fun p => negb (lt (fst p) first) && negb (lt last (fst p))) m).
Proof.
  intros K V St impl lt zk zv h0 l0 ops m first last Hk. cbn zeta. intros E H3. pose proof (reach_Rel _ _ Hk zk zv h0 l0 ops) as R. set (m0 := snd (run (map_spec lt) ops [])) in *. set (s := after _ _ _) in *.
  rewrite (call_iter _ _ Hk (nth_error h0) m0 s R) in E. injection E as E. subst m. pose proof (kind_sw _ _ Hk) as SW.
  destruct (use_call (St := unit) impl lt Hk (nth_error h0) (MRange first last) m0 s R) as [Er _]. cbn [map_step map_spec fst] in Er. rewrite show_fst in Er.
  assert (X : existsb (fun p => lt last (fst p) && lt (fst p) first) m0 = false).
  { apply existsb_none. apply Forall_forall. intros p _. destruct (lt last (fst p)) eqn:E1, (lt (fst p) first) eqn:E2; auto. rewrite (sw_trans _ SW _ _ _ E1 E2) in H3. discriminate. }
  rewrite X in Er. destruct (fst (walk (FindRange impl first last) s)); cbn in Er; try discriminate; injection Er as ->; reflexivity.
Qed.
Print Assumptions C07_find_range.
(** With last < first the loop runs off the list (nil dereference) exactly when
    some stored key lies strictly between them; otherwise it yields nothing. *)
Theorem C07_reversed_range : forall K V St impl (lt : K -> K -> bool) (zk : K) (zv : V) h0 l0 (ops : list (mop K V St)) m first last, kind impl lt ->
  let s := after impl ops (fresh zk zv h0 l0) in
  fst (walk Iterate s) = Ok m -> lt last first = true ->
  ((exists p, In p m /\ lt last (fst p) = true /\ lt (fst p) first = true) /\ fst (walk (FindRange impl first last) s) = Panic) \/
  ((forall p, In p m -> lt last (fst p) && lt (fst p) first = false) /\ fst (walk (FindRange impl first last) s) = Ok []).
Proof.
  intros K V St impl lt zk zv h0 l0 ops m first last Hk. cbn zeta. intros E H3. pose proof (reach_Rel _ _ Hk zk zv h0 l0 ops) as R. set (m0 := snd (run (map_spec lt) ops [])) in *. set (s := after _ _ _) in *.
  rewrite (call_iter _ _ Hk (nth_error h0) m0 s R) in E. injection E as E. subst m. pose proof (kind_sw _ _ Hk) as SW.
  destruct (use_call (St := unit) impl lt Hk (nth_error h0) (MRange first last) m0 s R) as [Er _]. cbn [map_step map_spec fst] in Er. rewrite show_fst in Er.
  destruct (existsb (fun p => lt last (fst p) && lt (fst p) first) m0) eqn:X.
  - left. split; [apply existsb_exists in X as (p & I & X); apply andb_true_iff in X; eauto|]. destruct (fst (walk (FindRange impl first last) s)); cbn in Er; congruence.
  - right. split.
    + intros p I. destruct (lt last (fst p) && lt (fst p) first) eqn:Y; auto. rewrite <- X. symmetry. apply existsb_exists. eauto.
    + destruct (fst (walk (FindRange impl first last) s)); cbn in Er; try discriminate. injection Er as ->. f_equal. apply filter_none. apply Forall_forall. intros p _.
      destruct (lt (fst p) first) eqn:E1, (lt last (fst p)) eqn:E2; auto. exfalso. rewrite (sw_negtrans _ SW _ _ _ E2 E1) in H3. discriminate.
Qed.
Print Assumptions C07_reversed_range.
Example C07_hyp : let s := after (St := unit) (implOrdered Z.ltb Z.eqb) [MInsert 1 10 1; MInsert 2 20 2; MInsert 3 30 3; MInsert 7 70 4] (fresh 0 0 [] (mkSL 0 0 None [])) in
  fst (walk (FindRange (implOrdered Z.ltb Z.eqb) 2 5) s) = Ok [(2, 20); (3, 30)] /\ fst (walk (FindRange (implOrdered Z.ltb Z.eqb) 4 6) s) = Ok [] /\
  fst (walk (FindRange (implOrdered Z.ltb Z.eqb) 7 2) s) = Panic /\ fst (walk (FindRange (implOrdered Z.ltb Z.eqb) 6 4) s) = Ok [].
Proof. vm_compute. auto. Qed.

(** *** C08: Clear *)
Theorem C08_clear : forall K V St St2 impl (lt : K -> K -> bool) (zk : K) (zv : V) h0 l0 (ops : list (mop K V St)) (ops2 : list (mop K V St2)), kind impl lt ->
  let s := after impl ops (fresh zk zv h0 l0) in
  fst (Clear s) = Ok tt /\ results impl ops2 (snd (Clear s)) = results impl ops2 (fresh zk zv h0 l0) /\
  fst (Len (snd (Clear s))) = Ok 0 /\ fst (walk Iterate (snd (Clear s))) = Ok [] /\ (forall k, fst (find_get impl k (snd (Clear s))) = Ok None).
Proof.
  intros K V St St2 impl lt zk zv h0 l0 ops ops2 Hk. cbn zeta. pose proof (reach_Rel _ _ Hk zk zv h0 l0 ops) as R. set (m0 := snd (run (map_spec lt) ops [])) in *. set (s := after _ _ _) in *.
  destruct (call_clear _ _ Hk (nth_error h0) m0 s R) as [E R1]. split; auto. split; [|split; [|split]].
  - rewrite (proj1 (use_run _ _ Hk (nth_error h0) ops2 [] _ R1)), (proj1 (use_run _ _ Hk (nth_error h0) ops2 [] _ (fresh_Rel lt zk zv h0 l0))). reflexivity.
  - apply (call_len _ _ Hk (nth_error h0) [] _ R1).
  - apply (call_iter _ _ Hk (nth_error h0) [] _ R1).
  - intros k. apply (call_find _ _ Hk (nth_error h0) [] _ R1).
Qed.
Print Assumptions C08_clear.
Example C08_hyp : results (St := unit) (implOrdered Z.ltb Z.eqb) [MInsert 1 10 (2 ^ 36); MInsert 2 20 (2 ^ 37); MClear; MLen; MIter; MInsert 3 30 (2 ^ 39); MFind 1; MIter] (fresh 0 0 [] (mkSL 0 0 None [])) =
  [Ok MNone; Ok MNone; Ok MNone; Ok (MInt 0); Ok (MSeq []); Ok MNone; Ok (MOpt None); Ok (MSeq [(3, 30)])].
Proof. vm_compute. reflexivity. Qed.

(** *** C09: the pointer Find returns *)
Section Cells.
Context {K V : Type}.
Variables (impl : @slimpl K V) (lt : K -> K -> bool).
Hypothesis Hk : kind impl lt.
Lemma cell_unique ps (c d : @cell K V) : ksorted lt (kvs ps) -> In c ps -> In d ps -> eqv lt (ck c) (ck d) = true -> c = d.
Proof using Hk.
  pose proof (kind_sw _ _ Hk) as SW. induction ps as [|x ps IH]; intros S I J E; [contradiction|]. cbn [kvs map] in S. inversion S as [|? ? S1 F]; subst.
  assert (L : forall y, In y ps -> lt (ck x) (ck y) = true). { intros y Iy. rewrite Forall_forall in F. apply (F (ck y, cv y)). now apply (in_map (fun c => (ck c, cv c))). }
  destruct I as [->|I], J as [->|J]; auto; exfalso.
  - apply eqv_true in E as [E _]. rewrite (L _ J) in E. discriminate.
  - apply eqv_true in E as [_ E]. rewrite (L _ I) in E. discriminate.
Qed.
Lemma find_cell h0 hd ps s k : rep h0 hd ps s -> ksorted lt (kvs ps) ->
  (exists c, In c ps /\ eqv lt (ck c) k = true /\ Find impl k s = (Ok (Some (ca c)), s)) \/ ((forall c, In c ps -> eqv lt (ck c) k = false) /\ Find impl k s = (Ok None, s)).
Proof using Hk.
  intros R S. destruct s as [h l]. destruct (kind_spec _ _ Hk) as (eqk & gtk & SP & SW & Eq & Gt). unfold Find.
  destruct (find_pos eqk gtk impl SP lt SW Eq Gt h0 hd ps h l k R S) as [(A & c & B & -> & H1 & H2 & H3 & E)|(A & B & -> & H1 & H3 & E)]; rewrite (bind_eq _ _ _ _ _ E).
  - left. exists c. split; [apply in_app_iff; right; now left|]. split; [|reflexivity]. now inversion H2.
  - right. split; [|reflexivity]. intros c I. apply in_app_iff in I as [I|I].
    + apply eqv_false_l. rewrite Forall_forall in H1. apply (H1 (ck c, cv c)). now apply (in_map (fun c => (ck c, cv c))).
    + apply eqv_false_r. rewrite Forall_forall in H3. apply (H3 (ck c, cv c)). now apply (in_map (fun c => (ck c, cv c))).
Qed.
Lemma find_is h0 hd ps s k c : rep h0 hd ps s -> ksorted lt (kvs ps) -> In c ps -> eqv lt (ck c) k = true -> Find impl k s = (Ok (Some (ca c)), s).
Proof using Hk.
  intros R S I E. pose proof (kind_sw _ _ Hk) as SW. destruct (find_cell h0 hd ps s k R S) as [(d & J & E2 & F)|[N _]]; [|rewrite N in E by auto; discriminate].
  assert (c = d) as -> by (apply (cell_unique ps); auto; rewrite eqv_sym in E2; apply (eqv_trans lt SW _ k); auto). exact F.
Qed.
Lemma removes_eqv {St} k k' (o : mop K V St) : eqv lt k k' = true -> removes lt k o = removes lt k' o.
Proof using Hk. intros E. destruct o; auto. cbn. apply eqv_cong; auto. apply (kind_sw _ _ Hk). Qed.
Lemma forallb_ext {A} (f g : A -> bool) l : (forall x, f x = g x) -> forallb f l = forallb g l.
Proof. intros H. induction l as [|x l IH]; cbn; auto. now rewrite H, IH. Qed.
Lemma cell_survives {St} h0 (ops : list (mop K V St)) hd ps s c : rep h0 hd ps s -> ksorted lt (kvs ps) -> In c ps -> forallb (fun o => negb (removes lt (ck c) o)) ops = true ->
  exists ps' c', kvs ps' = snd (run (map_spec lt) ops (kvs ps)) /\ rep h0 hd ps' (after impl ops s) /\ ksorted lt (kvs ps') /\ In c' ps' /\ ca c' = ca c /\ ck c' = ck c.
Proof using Hk.
  intros R S I F. destruct (kind_spec _ _ Hk) as (eqk & gtk & SP & SW & Eq & Gt). exact (run_survives eqk gtk impl SP lt SW Eq Gt h0 ops hd ps s c R S I F).
Qed.
End Cells.
(** While no call removes a key equal to k or clears the list, the pointer a
    that Find(k) gave stays the one Find(k) gives, reads the current value of k,
    and a write through it changes the value of k and nothing else. *)
Theorem C09_find_pointer : forall K V St St2 St3 impl (lt : K -> K -> bool) (zk : K) (zv : V) h0 l0 (ops1 : list (mop K V St)) k a (ops2 : list (mop K V St2)), kind impl lt ->
  let s1 := after impl ops1 (fresh zk zv h0 l0) in
  fst (Find impl k s1) = Ok (Some a) -> forallb (fun o => negb (removes lt k o)) ops2 = true ->
  let s2 := after impl ops2 s1 in
  Find impl k s2 = (Ok (Some a), s2) /\
  (exists v, ld_value (Some a) s2 = (Ok v, s2) /\ fst (find_get impl k s2) = Ok (Some v)) /\
  (forall w, exists s3, st_value (Some a) w s2 = (Ok tt, s3) /\
     (forall k', fst (find_get impl k' s3) = if eqv lt k' k then Ok (Some w) else fst (find_get impl k' s2)) /\
     (forall m, fst (walk Iterate s2) = Ok m -> forall ops3 : list (mop K V St3), results impl ops3 s3 = fst (run (map_spec lt) ops3 (set_value lt k w m)))).
Proof.
  intros K V St St2 St3 impl lt zk zv h0 l0 ops1 k a ops2 Hk. cbn zeta. intros F N. pose proof (kind_sw _ _ Hk) as SW.
  destruct (reach_Rel _ _ Hk zk zv h0 l0 ops1) as (hd & ps & Em & R & S). rewrite <- Em in S. clear Em. set (s1 := after impl ops1 _) in *.
  destruct (find_cell _ _ Hk (nth_error h0) hd ps s1 k R S) as [(c & I & E & Fc)|[_ Fn]]; [|rewrite Fn in F; discriminate]. rewrite Fc in F. injection F as Ea.
  rewrite (forallb_ext _ (fun o => negb (removes lt (ck c) o))) in N by (intros o; f_equal; symmetry; apply (removes_eqv impl lt Hk); auto).
  destruct (cell_survives _ _ Hk (nth_error h0) ops2 hd ps s1 c R S I N) as (ps' & c' & Ek & R' & S' & I' & Ea' & Ek'). set (s2 := after impl ops2 s1) in *. rewrite <- Ek' in E. rewrite <- Ea' in Ea.
  assert (R2 : Rel lt (nth_error h0) (kvs ps') s2) by (exists hd, ps'; auto).
  split; [rewrite <- Ea; apply (find_is _ _ Hk (nth_error h0) hd ps'); auto|]. destruct s2 as [h l]. pose proof (rep_cell _ _ _ _ _ _ R' I') as C. rewrite Ea in C.
  split.
  - exists (cv c'). split; [apply (ld_value_ok _ _ _ _ _ _ C)|]. rewrite (call_find _ _ Hk (nth_error h0) _ _ R2). f_equal. apply lookup_iff; auto. exists (ck c'). split; auto. now apply (in_map (fun c => (ck c, cv c))).
  - intros w. exists (sv a w h, l). split; [apply (st_value_ok _ _ _ _ _ C)|].
    assert (R3 : Rel lt (nth_error h0) (set_value lt k w (kvs ps')) (sv a w h, l)).
    { destruct (in_split _ _ I') as (A & B & ->). exists hd, (A ++ set_cv w c' :: B). rewrite <- Ea. split; [|split; [now apply set_mid|]].
      - destruct (found_pos lt SW k A c' B S' E) as (H1 & H2 & H3). change (c' :: B) with ([c'] ++ B). rewrite !kvs_app, (pos_set lt k _ _ _ H1 H2 H3). reflexivity.
      - now apply ksorted_set. }
    split.
    + intros k'. rewrite (call_find _ _ Hk (nth_error h0) _ _ R3), (call_find _ _ Hk (nth_error h0) _ _ R2), (lookup_set lt SW) by auto.
      assert (has lt k (kvs ps') = true) as ->. { apply has_iff. exists (ck c', cv c'). split; auto. now apply (in_map (fun c => (ck c, cv c))). }
      now destruct (eqv lt k' k).
    + intros m Em ops3. rewrite (call_iter _ _ Hk (nth_error h0) _ _ R2) in Em. injection Em as <-. apply (use_run _ _ Hk (nth_error h0) ops3 _ _ R3).
Qed.
Print Assumptions C09_find_pointer.
Example C09_hyp : let s1 := after (St := unit) (implOrdered Z.ltb Z.eqb) [MInsert 1 10 1; MInsert 2 20 (2 ^ 38)] (fresh 0 0 [] (mkSL 0 0 None [])) in
  fst (Find (implOrdered Z.ltb Z.eqb) 2 s1) = Ok (Some 2%nat) /\
  forallb (fun o => negb (removes Z.ltb 2 o)) [MRemove 1; MInsert 3 30 1; MInsert 2 21 1; MForEachMutable (St := unit) (fun st p => (snd p + 1, st)) tt] = true /\
  forallb (fun o => negb (removes (St := unit) Z.ltb 2 o)) [MInsert 3 30 1; MRemove 2] = false.
Proof. vm_compute. auto. Qed.

(** *** C10: iterators under mutation *)
(** Iterators a client can have: from Iterate, LowerBound or UpperBound in some
    reachable state, moved on, and kept over calls that do not remove the key
    the iterator stands on. *)
Section Live.
Context {K V : Type}.
Variables (impl : @slimpl K V) (lt : K -> K -> bool) (zk : K) (zv : V) (h0 : list (slnode K V)) (l0 : sklist).
Inductive live : list (slnode K V) * sklist -> iter -> Prop :=
| lv_begin St (ops : list (mop K V St)) it : let s := after impl ops (fresh zk zv h0 l0) in Iterate s = (Ok it, s) -> live s it
| lv_lower St (ops : list (mop K V St)) k it : let s := after impl ops (fresh zk zv h0 l0) in LowerBound impl k s = (Ok it, s) -> live s it
| lv_upper St (ops : list (mop K V St)) k it : let s := after impl ops (fresh zk zv h0 l0) in UpperBound impl k s = (Ok it, s) -> live s it
| lv_next s it it' : live s it -> MoveToNext it s = (Ok it', s) -> live s it'
| lv_calls St s it k (ops : list (mop K V St)) : live s it -> fst (Key it s) = Ok k -> forallb (fun o => negb (removes lt k o)) ops = true -> live (after impl ops s) it.
Hypothesis Hk : kind impl lt.
Lemma iterate_is hd ps h l : rep (nth_error h0) hd ps (h, l) -> Iterate (h, l) = (Ok (firstp ps, None), (h, l)).
Proof.
  intros R. unfold Iterate. rewrite bind_hget. pose proof (r_head _ _ _ _ R) as Hh. cbn in Hh. rewrite Hh.
  now rewrite (bind_eq _ _ _ _ _ (ld_next_ok _ _ _ _ _ (chain_first _ _ _ _ (rep_chain0 _ _ _ _ _ R)))).
Qed.
Lemma live_ok s it : live s it -> exists hd A B, rep (nth_error h0) hd (A ++ B) s /\ ksorted lt (kvs (A ++ B)) /\ it = (firstp B, None).
Proof using Hk.
  destruct (kind_spec _ _ Hk) as (eqk & gtk & SP & SW & Eq & Gt).
  induction 1 as [St ops it s E|St ops k it s E|St ops k it s E|s it it' L (hd & A & B & R & S & ->) E|St s it k ops L (hd & A & B & R & S & ->) E N].
  - destruct (reach_Rel _ _ Hk zk zv h0 l0 ops) as (hd & ps & Em & R & S). fold s in R. rewrite <- Em in S. clearbody s. destruct s as [h l].
    rewrite (iterate_is hd ps h l R) in E. injection E as <-. exists hd, [], ps. auto.
  - destruct (reach_Rel _ _ Hk zk zv h0 l0 ops) as (hd & ps & Em & R & S). fold s in R. rewrite <- Em in S. clearbody s. destruct s as [h l].
    destruct (lower_pos eqk gtk impl SP lt SW Eq Gt (nth_error h0) hd ps h l k R S) as (A & M & B & -> & _ & _ & _ & El). unfold LowerBound in E. rewrite (bind_eq _ _ _ _ _ El) in E. injection E as <-.
    exists hd, A, (M ++ B). auto.
  - destruct (reach_Rel _ _ Hk zk zv h0 l0 ops) as (hd & ps & Em & R & S). fold s in R. rewrite <- Em in S. clearbody s. destruct s as [h l].
    destruct (upper_pos eqk gtk impl SP lt SW Eq Gt (nth_error h0) hd ps h l k R S) as (A & M & B & -> & _ & _ & _ & El). unfold UpperBound in E. rewrite (bind_eq _ _ _ _ _ El) in E. injection E as <-.
    exists hd, (A ++ M), B. rewrite <- app_assoc. auto.
  - destruct s as [h l]. destruct B as [|c B]; [discriminate E|]. unfold MoveToNext in E. cbn [fst snd firstp] in E. rewrite (bind_eq _ _ _ _ _ (ld_next_ok _ _ _ _ _ (rep_next _ _ _ _ _ _ _ R))) in E. injection E as <-.
    exists hd, (A ++ [c]), B. rewrite <- app_assoc. auto.
  - destruct B as [|c B]; [discriminate E|]. assert (I : In c (A ++ c :: B)) by (apply in_app_iff; right; now left).
    destruct s as [h l]. unfold Key in E. cbn [fst firstp] in E. rewrite (ld_key_ok _ _ _ _ _ _ (rep_cell _ _ _ _ _ _ R I)) in E. injection E as <-.
    destruct (cell_survives _ _ Hk (nth_error h0) ops hd _ _ c R S I N) as (ps' & c' & Ek & R' & S' & I' & Ea & _). destruct (in_split _ _ I') as (A' & B' & ->). exists hd, A', (c' :: B'). cbn [firstp]. rewrite Ea. auto.
Qed.
End Live.
(** Such an iterator always stands at a position of the current contents, and
    continuing it visits exactly the rest. *)
Theorem C10_interleaved : forall K V impl (lt : K -> K -> bool) (zk : K) (zv : V) h0 l0 s it, kind impl lt -> live impl lt zk zv h0 l0 s it ->
  exists m A B, fst (walk Iterate s) = Ok m /\ m = A ++ B /\ strictly_sorted_by lt (map fst m) /\ stands_at it B s.
Proof.
  intros K V impl lt zk zv h0 l0 s it Hk L. destruct (live_ok _ _ _ _ _ _ Hk s it L) as (hd & A & B & R & S & ->).
  assert (R2 : Rel lt (nth_error h0) (kvs (A ++ B)) s) by (exists hd, (A ++ B); auto).
  exists (kvs (A ++ B)), (kvs A), (kvs B). split; [apply (call_iter _ _ Hk (nth_error h0) _ _ R2)|]. split; [apply kvs_app|]. split; [now apply ksorted_nth|]. now apply (stands_ok (nth_error h0) hd A).
Qed.
Print Assumptions C10_interleaved.
(** In particular: an iterator on key k, after any calls that do not remove k,
    still has key k, and moving it on visits exactly the stored pairs with a
    greater key, in order. *)
Theorem C10_stable : forall K V St impl (lt : K -> K -> bool) (zk : K) (zv : V) h0 l0 s1 it k (ops : list (mop K V St)), kind impl lt ->
  live impl lt zk zv h0 l0 s1 it -> fst (Key it s1) = Ok k -> forallb (fun o => negb (removes lt k o)) ops = true ->
  let s2 := after impl ops s1 in
  IsNotEnd it = true /\ Key it s2 = (Ok k, s2) /\
  exists m v it', fst (walk Iterate s2) = Ok m /\ Value it s2 = (Ok v, s2) /\ In (k, v) m /\
    MoveToNext it s2 = (Ok it', s2) /\ stands_at it' (filter (fun p => lt k (fst p)) m) s2.
Proof.
  intros K V St impl lt zk zv h0 l0 s1 it k ops Hk L E N. cbn zeta. pose proof (kind_sw _ _ Hk) as SW.
  destruct (live_ok _ _ _ _ _ _ Hk s1 it L) as (hd & A & B & R & S & ->). destruct B as [|c B]; [discriminate E|].
  assert (I : In c (A ++ c :: B)) by (apply in_app_iff; right; now left).
  assert (ck c = k) as <-. { destruct s1 as [h l]. unfold Key in E. cbn [fst firstp] in E. rewrite (ld_key_ok _ _ _ _ _ _ (rep_cell _ _ _ _ _ _ R I)) in E. now injection E. }
  destruct (cell_survives _ _ Hk (nth_error h0) ops hd _ _ c R S I N) as (ps' & c' & _ & R' & S' & I' & Ea & Ek). set (s2 := after impl ops s1) in *. clearbody s2.
  assert (R2 : Rel lt (nth_error h0) (kvs ps') s2) by (exists hd, ps'; auto). pose proof (call_iter _ _ Hk (nth_error h0) _ _ R2) as Ei.
  destruct (in_split _ _ I') as (A' & B' & ->). destruct (stands_ok (nth_error h0) hd A' (c' :: B') s2 R') as (_ & KV & _). specialize (KV _ _ eq_refl). cbn [fst snd firstp] in KV. destruct KV as [HK HV].
  cbn [firstp]. rewrite <- Ea, <- Ek. split; [reflexivity|]. split; [exact HK|]. exists (kvs (A' ++ c' :: B')), (cv c'), (firstp B', None).
  split; auto. split; auto. split; [now apply (in_map (fun c => (ck c, cv c)))|].
  split; [destruct s2 as [h l]; unfold MoveToNext; cbn [fst snd]; now rewrite (bind_eq _ _ _ _ _ (ld_next_ok _ _ _ _ _ (rep_next _ _ _ _ _ _ _ R')))|].
  destruct (found_pos lt SW (ck c') A' c' B' S' (eqv_refl lt SW _)) as (H1 & H2 & H3).
  pose proof (pos_upper lt SW (ck c') _ _ _ H1 H2 H3) as Ef. rewrite <- !kvs_app in Ef. cbn [app] in Ef. rewrite Ef.
  apply (stands_ok (nth_error h0) hd (A' ++ [c'])). now rewrite <- app_assoc.
Qed.
Print Assumptions C10_stable.
Example C10_hyp : let impl := implOrdered Z.ltb Z.eqb in let s := fresh 0 0 [] (mkSL 0 0 None []) in
  let s1 := after (St := unit) impl [MInsert 2 20 1; MInsert 4 40 (2 ^ 38); MInsert 6 60 3] s in
  LowerBound impl 3 s1 = (Ok (Some 2%nat, None), s1) /\ fst (Key (Some 2%nat, None) s1) = Ok 4 /\
  forallb (fun o => negb (removes (St := unit) Z.ltb 4 o)) [MRemove 2; MRemove 6; MInsert 5 50 (2 ^ 39); MInsert 9 90 1] = true.
Proof. vm_compute. auto. Qed.

(** *** C11: erase while iterating *)
Theorem C11_erase_if : forall K V St St2 impl (lt : K -> K -> bool) (zk : K) (zv : V) h0 l0 (ops : list (mop K V St)) (pred : K * V -> bool) m (ops2 : list (mop K V St2)), kind impl lt ->
  let s := after impl ops (fresh zk zv h0 l0) in
  fst (walk Iterate s) = Ok m ->
  let s2 := snd (erase_if impl pred s) in
  fst (erase_if impl pred s) = Ok tt /\ fst (walk Iterate s2) = Ok (filter (fun p => negb (pred p)) m) /\
  results impl ops2 s2 = fst (run (map_spec lt) ops2 (filter (fun p => negb (pred p)) m)).
Proof.
  intros K V St St2 impl lt zk zv h0 l0 ops pred m ops2 Hk. cbn zeta. intros E. pose proof (reach_Rel _ _ Hk zk zv h0 l0 ops) as R. set (m0 := snd (run (map_spec lt) ops [])) in *. set (s := after _ _ _) in *.
  rewrite (call_iter _ _ Hk (nth_error h0) m0 s R) in E. injection E as E. subst m. destruct (kind_spec _ _ Hk) as (eqk & gtk & SP & SW & Eq & Gt).
  destruct (erase_if_ok eqk gtk impl SP lt SW Eq Gt pred (nth_error h0) m0 s R) as (s' & Ee & R'). rewrite Ee. cbn [fst snd]. split; auto. split; [apply (call_iter _ _ Hk (nth_error h0) _ _ R')|apply (use_run _ _ Hk (nth_error h0) ops2 _ _ R')].
Qed.
Print Assumptions C11_erase_if.
Example C11_hyp : let impl := implOrdered Z.ltb Z.eqb in let s := after (St := unit) impl [MInsert 2 20 1; MInsert 4 41 (2 ^ 38); MInsert 6 60 3; MInsert 8 80 9] (fresh 0 0 [] (mkSL 0 0 None [])) in
  fst (walk Iterate (snd (erase_if impl (fun p => (4 <=? fst p) && Z.even (snd p)) s))) = Ok [(2, 20); (4, 41)].
Proof. vm_compute. auto. Qed.

(** *** C12: levels *)
Theorem C12_level_range : forall r len, (1 <= randomLevel r len <= 40)%nat /\ (1 <= len -> Z.of_nat (randomLevel r len) <= 3 + Z.log2 len).
Proof.
  intros r len. split; [apply randomLevel_range|]. intros L. destruct (randomLevel_len r len) as [H|H]; [pose proof (Z.log2_nonneg len); lia|].
  apply Z.log2_le_mono in H. rewrite Z.log2_pow2 in H by lia. lia.
Qed.
Print Assumptions C12_level_range.
Theorem C12_newnode_never_panics : forall K V (k : K) (v : V) r len s, exists p s', newSkipListNode (randomLevel r len) k v s = (Ok p, s').
Proof.
  intros K V k v r len s. pose proof (randomLevel_range r len) as B. unfold newSkipListNode.
  rewrite (nexts_len_ok _ B). destruct s as [h l]. eexists _, _. reflexivity.
Qed.
Print Assumptions C12_newnode_never_panics.
(** The distribution: the level is at least j <= 40 for exactly those numbers
    whose low 40 bits are below 2^(41-j), if j is at most 3 or the length at least
    2^(j-3); half of all numbers for j = 2, a quarter for j = 3, ... *)
Theorem C12_distribution : forall r len j, (1 <= j)%nat ->
  ((j <= randomLevel r len)%nat <-> r mod 2 ^ 40 < 2 ^ (41 - Z.of_nat j) /\ (j <= 40)%nat /\ ((j <= 3)%nat \/ 2 ^ (Z.of_nat j - 3) <= len)).
Proof.
  intros r len j Hj. rewrite Proof_Draws.level_ge by auto. unfold Proof_Draws.open. rewrite andb_true_iff, orb_true_iff, !Nat.leb_le, Z.leb_le.
  destruct (Nat.leb_spec j 3); [intuition lia|]. replace (Z.of_nat (j - 3)) with (Z.of_nat j - 3) by lia. intuition lia.
Qed.
Print Assumptions C12_distribution.
(** In every reachable state the list's level is between 1 and 40. *)
Theorem C12_list_level : forall K V St impl (lt : K -> K -> bool) (zk : K) (zv : V) h0 l0 (ops : list (mop K V St)), kind impl lt ->
  (1 <= sl_level (snd (after impl ops (fresh zk zv h0 l0))) <= 40)%nat.
Proof. intros K V St impl lt zk zv h0 l0 ops Hk. destruct (reach_Rel _ _ Hk zk zv h0 l0 ops) as (hd & ps & _ & R & _). exact (r_level _ _ _ _ R). Qed.
Print Assumptions C12_list_level.
Example C12_hyp : randomLevel 0 (2 ^ 37) = 40%nat /\ randomLevel 0 100 = 9%nat /\ randomLevel (2 ^ 39) 100 = 1%nat /\ randomLevel (2 ^ 39 - 1) 100 = 2%nat /\ randomLevel 0 0 = 3%nat /\ 3 + Z.log2 100 = 9.
Proof. vm_compute. repeat split. Qed.

(** *** C13: the callback loops *)
Theorem C13_for_each_if : forall K V St St2 impl (lt : K -> K -> bool) (zk : K) (zv : V) h0 l0 (ops : list (mop K V St)) m (cb : St2 -> K * V -> bool * St2) st, kind impl lt ->
  let s := after impl ops (fresh zk zv h0 l0) in
  fst (walk Iterate s) = Ok m -> ForEachIf cb st s = (Ok (fold_while cb st m), s).
Proof.
  intros K V St St2 impl lt zk zv h0 l0 ops m cb st Hk. cbn zeta. intros E. pose proof (reach_Rel _ _ Hk zk zv h0 l0 ops) as R. set (s := after _ _ _) in *.
  rewrite (call_iter _ _ Hk (nth_error h0) _ s R) in E. injection E as E. rewrite E in R. destruct R as (hd & ps & <- & R & S). destruct s as [h l]. apply (ForEachIf_ok cb (nth_error h0) hd ps h l st R).
Qed.
Print Assumptions C13_for_each_if.
(** The pairs are replaced by what the callback left; afterwards the list
    behaves like the map with these pairs, for any further calls. *)
Theorem C13_for_each_mutable : forall K V St St2 St3 impl (lt : K -> K -> bool) (zk : K) (zv : V) h0 l0 (ops : list (mop K V St)) m (cb : St2 -> K * V -> V * St2) st (ops2 : list (mop K V St3)), kind impl lt ->
  let s := after impl ops (fresh zk zv h0 l0) in
  fst (walk Iterate s) = Ok m ->
  let r := map_st (fun st p => let '(v, st') := cb st p in ((fst p, v), st')) st m in
  let s2 := snd (ForEachMutable cb st s) in
  fst (ForEachMutable cb st s) = Ok (snd r) /\ fst (walk Iterate s2) = Ok (fst r) /\ map fst (fst r) = map fst m /\ fst (Len s2) = fst (Len s) /\
  results impl ops2 s2 = fst (run (map_spec lt) ops2 (fst r)).
Proof.
  intros K V St St2 St3 impl lt zk zv h0 l0 ops m cb st ops2 Hk. cbn zeta. intros E. pose proof (reach_Rel _ _ Hk zk zv h0 l0 ops) as R. set (s := after _ _ _) in *.
  rewrite (call_iter _ _ Hk (nth_error h0) _ s R) in E. injection E as E. rewrite E in R. destruct (use_call impl lt Hk (nth_error h0) (MForEachMutable cb st) m s R) as [E1 R1]. cbn [map_step map_spec] in E1, R1. rewrite show_fst in E1. rewrite show_snd in R1.
  pose proof (map_st_fst cb m st) as Ef. destruct (map_st _ st m) as [m' st']. cbn [fst snd] in *.
  split; [destruct (fst (ForEachMutable cb st s)); cbn in E1; try discriminate; now injection E1 as ->|]. split; [apply (call_iter _ _ Hk (nth_error h0) _ _ R1)|]. split; auto.
  split; [rewrite (call_len _ _ Hk (nth_error h0) _ _ R1), (call_len _ _ Hk (nth_error h0) _ _ R); unfold zlen; rewrite <- (map_length fst m'), Ef, map_length; reflexivity|]. apply (use_run _ _ Hk (nth_error h0) ops2 _ _ R1).
Qed.
Print Assumptions C13_for_each_mutable.
Theorem C13_for_each_mutable_if : forall K V St St2 St3 impl (lt : K -> K -> bool) (zk : K) (zv : V) h0 l0 (ops : list (mop K V St)) m (cb : St2 -> K * V -> V * bool * St2) st (ops2 : list (mop K V St3)), kind impl lt ->
  let s := after impl ops (fresh zk zv h0 l0) in
  fst (walk Iterate s) = Ok m ->
  let r := map_while (fun st p => let '(v, go, st') := cb st p in ((fst p, v), go, st')) st m in
  let s2 := snd (ForEachMutableIf cb st s) in
  fst (ForEachMutableIf cb st s) = Ok (snd r) /\ fst (walk Iterate s2) = Ok (fst r) /\ map fst (fst r) = map fst m /\ fst (Len s2) = fst (Len s) /\
  results impl ops2 s2 = fst (run (map_spec lt) ops2 (fst r)).
Proof.
  intros K V St St2 St3 impl lt zk zv h0 l0 ops m cb st ops2 Hk. cbn zeta. intros E. pose proof (reach_Rel _ _ Hk zk zv h0 l0 ops) as R. set (s := after _ _ _) in *.
  rewrite (call_iter _ _ Hk (nth_error h0) _ s R) in E. injection E as E. rewrite E in R. destruct (use_call impl lt Hk (nth_error h0) (MForEachMutableIf cb st) m s R) as [E1 R1]. cbn [map_step map_spec] in E1, R1. rewrite show_fst in E1. rewrite show_snd in R1.
  pose proof (map_while_fst cb m st) as Ef. destruct (map_while _ st m) as [m' st']. cbn [fst snd] in *.
  split; [destruct (fst (ForEachMutableIf cb st s)); cbn in E1; try discriminate; now injection E1 as ->|]. split; [apply (call_iter _ _ Hk (nth_error h0) _ _ R1)|]. split; auto.
  split; [rewrite (call_len _ _ Hk (nth_error h0) _ _ R1), (call_len _ _ Hk (nth_error h0) _ _ R); unfold zlen; rewrite <- (map_length fst m'), Ef, map_length; reflexivity|]. apply (use_run _ _ Hk (nth_error h0) ops2 _ _ R1).
Qed.
Print Assumptions C13_for_each_mutable_if.
(** The callback logs what it sees, adds 1, and stops at key 4. *)
Example C13_hyp : let impl := implOrdered Z.ltb Z.eqb in let s := after (St := unit) impl [MInsert 2 20 1; MInsert 6 60 3; MInsert 4 40 (2 ^ 38)] (fresh 0 0 [] (mkSL 0 0 None [])) in
  let cb (log : list Z) (p : Z * Z) := (snd p + 1, negb (fst p =? 4), log ++ [snd p]) in
  fst (ForEachMutableIf cb [] s) = Ok [20; 40] /\ fst (walk Iterate (snd (ForEachMutableIf cb [] s))) = Ok [(2, 21); (4, 41); (6, 60)].
Proof. vm_compute. auto. Qed.

(** *** C14: NewSkipListFromMap *)
Definition distinct_keys {K V} (lt : K -> K -> bool) (m : list (K * V)) : Prop :=
  forall i j p q, i <> j -> nth_error m i = Some p -> nth_error m j = Some q -> lt (fst p) (fst q) = true \/ lt (fst q) (fst p) = true.
Definition apart_keys {K V} (lt : K -> K -> bool) (m : list (K * V)) : Prop := forall X p Y, m = X ++ p :: Y -> forall q, In q (X ++ Y) -> eqv lt (fst p) (fst q) = false.
Lemma distinct_apart {K V} (lt : K -> K -> bool) (m : list (K * V)) : distinct_keys lt m -> apart_keys lt m.
Proof.
  intros D X p Y -> q I. assert (H : exists j, j <> length X /\ nth_error (X ++ p :: Y) j = Some q).
  { apply in_app_iff in I as [I|I]; apply In_nth_error in I as [n Hn].
    - exists n. assert (n < length X)%nat by (apply nth_error_Some; congruence). split; [lia|]. now rewrite nth_error_app1.
    - exists (length X + S n)%nat. split; [lia|]. rewrite nth_error_app2 by lia. replace (length X + S n - length X)%nat with (S n) by lia. exact Hn. }
  destruct H as (j & NE & Hj). destruct (D (length X) j p q) as [L|L]; auto.
  - rewrite nth_error_app2, Nat.sub_diag by lia. reflexivity.
  - now apply eqv_false_l.
  - now apply eqv_false_r.
Qed.
Lemma apart_perm {K V} (lt : K -> K -> bool) (m m' : list (K * V)) : Permutation m m' -> apart_keys lt m -> apart_keys lt m'.
Proof.
  intros P D X p Y -> q I. assert (Ip : In p m) by (apply (Permutation_in _ (Permutation_sym P)); apply in_app_iff; right; now left).
  destruct (in_split _ _ Ip) as (A & B & ->). apply Permutation_app_inv in P. apply (D A p B eq_refl). apply (Permutation_in _ (Permutation_sym P) I).
Qed.
Lemma insert_perm {K V} (lt : K -> K -> bool) k (v : V) m : strict_weak lt -> ksorted lt m -> has lt k m = false -> Permutation (insert lt k v m) ((k, v) :: m).
Proof.
  intros SW S N. apply NoDup_Permutation.
  - apply (ksorted_nodup lt SW). now apply ksorted_insert.
  - constructor; [|now apply (ksorted_nodup lt SW)]. intros I. assert (has lt k m = true) by (apply has_iff; exists (k, v); split; auto; apply (eqv_refl lt SW)). congruence.
  - intros p. rewrite (in_insert lt k v m p N). cbn. split; intros [H|H]; auto.
Qed.
Lemma insert_all_ok {K V} (impl : @slimpl K V) lt h0 kvrs : kind impl lt -> forall m s, Rel lt h0 m s -> apart_keys lt (m ++ map fst kvrs) ->
  exists m' s', insert_all impl kvrs s = (Ok tt, s') /\ Rel lt h0 m' s' /\ Permutation m' (m ++ map fst kvrs).
Proof.
  intros Hk. pose proof (kind_sw _ _ Hk) as SW. induction kvrs as [|[[k v] r] kvrs IH]; intros m s R D; cbn [insert_all map fst] in *.
  - exists m, s. split; auto. split; auto. rewrite app_nil_r. apply Permutation_refl.
  - destruct (call_insert _ _ Hk h0 m s R k v r) as [E R1].
    assert (N : has lt k m = false).
    { destruct (has lt k m) eqn:Hh; auto. apply has_iff in Hh as (p & I & Ep). rewrite eqv_sym in Ep. pose proof (D m (k, v) _ eq_refl p ltac:(apply in_app_iff; auto)) as X. cbn in X. congruence. }
    pose proof (insert_perm lt k v m SW (Rel_sorted _ _ _ _ R) N) as Pm.
    assert (PP : Permutation (insert lt k v m ++ map fst kvrs) (m ++ (k, v) :: map fst kvrs)).
    { eapply Permutation_trans; [apply Permutation_app_tail; exact Pm|]. cbn. apply Permutation_middle. }
    destruct (IH (insert lt k v m) (snd (Insert impl k v r s)) R1) as (m' & s' & E' & R' & P').
    + apply (apart_perm lt (m ++ (k, v) :: map fst kvrs)); [now apply Permutation_sym|exact D].
    + exists m', s'. split; [destruct (Insert impl k v r s) as [o s1] eqn:Ei; cbn in E; subst o; rewrite (bind_eq _ _ _ _ _ Ei); exact E'|]. split; auto.
      eapply Permutation_trans; [exact P'|exact PP].
Qed.
Lemma from_map_ok {K V} (impl : @slimpl K V) lt (zk : K) (zv : V) h0 l0 kvrs : kind impl lt -> distinct_keys lt (map fst kvrs) ->
  exists m s, NewSkipListFromMap zk zv impl kvrs (h0, l0) = (Ok tt, s) /\ Rel lt (nth_error h0) m s /\ Permutation m (map fst kvrs).
Proof.
  intros Hk D. destruct (insert_all_ok impl lt (nth_error h0) kvrs Hk [] _ (fresh_Rel lt zk zv h0 l0) (distinct_apart _ _ D)) as (m & s & E & R & P). exists m, s. split; auto.
Qed.
(** The keys of a Go map are pairwise different; kvrs is one iteration order
    with the random numbers drawn. *)
Theorem C14_from_map : forall K V St (ltb eqb : K -> K -> bool) (zk : K) (zv : V) h0 l0 kvrs (ops : list (mop K V St)), ordered ltb eqb -> distinct_keys ltb (map fst kvrs) ->
  let impl := implOrdered ltb eqb in
  let s := snd (NewSkipListFromMap zk zv impl kvrs (h0, l0)) in
  fst (NewSkipListFromMap zk zv impl kvrs (h0, l0)) = Ok tt /\
  exists m, fst (walk Iterate s) = Ok m /\ Permutation m (map fst kvrs) /\ strictly_sorted_by ltb (map fst m) /\ fst (Len s) = Ok (zlen kvrs) /\
    results impl ops s = fst (run (map_spec ltb) ops m).
Proof.
  intros K V St ltb eqb zk zv h0 l0 kvrs ops O D. cbn zeta. assert (Hk : kind (V := V) (implOrdered ltb eqb) ltb) by (left; eauto).
  destruct (from_map_ok _ _ zk zv h0 l0 kvrs Hk D) as (m & s & E & R & P). rewrite E. cbn [fst snd]. split; auto. exists m. split; [apply (call_iter _ _ Hk (nth_error h0) _ _ R)|]. split; auto.
  split; [apply ksorted_nth; apply (Rel_sorted _ _ _ _ R)|]. split; [rewrite (call_len _ _ Hk (nth_error h0) _ _ R); unfold zlen; rewrite (Permutation_length P), map_length; reflexivity|]. apply (use_run _ _ Hk (nth_error h0) ops _ _ R).
Qed.
Print Assumptions C14_from_map.
Theorem C14_order_irrelevant : forall K V St (ltb eqb : K -> K -> bool) (zk : K) (zv : V) h0 l0 h0' l0' kvrs kvrs' (ops : list (mop K V St)), ordered ltb eqb -> distinct_keys ltb (map fst kvrs) ->
  Permutation (map fst kvrs) (map fst kvrs') ->
  let impl := implOrdered ltb eqb in
  results impl ops (snd (NewSkipListFromMap zk zv impl kvrs (h0, l0))) = results impl ops (snd (NewSkipListFromMap zk zv impl kvrs' (h0', l0'))).
Proof.
  intros K V St ltb eqb zk zv h0 l0 h0' l0' kvrs kvrs' ops O D P. cbn zeta. assert (Hk : kind (V := V) (implOrdered ltb eqb) ltb) by (left; eauto). pose proof (kind_sw _ _ Hk) as SW.
  destruct (from_map_ok _ _ zk zv h0 l0 kvrs Hk D) as (m & s & E & R & P1).
  destruct (insert_all_ok _ ltb (nth_error h0') kvrs' Hk [] _ (fresh_Rel ltb zk zv h0' l0') (apart_perm _ _ _ P (distinct_apart _ _ D))) as (m' & s' & E' & R' & P2).
  assert (E2 : NewSkipListFromMap zk zv (implOrdered ltb eqb) kvrs' (h0', l0') = (Ok tt, s')) by exact E'. rewrite E, E2. cbn [snd]. cbn [app] in P2.
  assert (m = m') as ->. { apply (ksorted_ext ltb SW); [apply (Rel_sorted _ _ _ _ R)|apply (Rel_sorted _ _ _ _ R')|]. intros p. assert (Q : Permutation m m') by (eapply Permutation_trans; [exact P1|]; eapply Permutation_trans; [exact P|]; now apply Permutation_sym).
    split; apply Permutation_in; auto using Permutation_sym. }
  rewrite (proj1 (use_run _ _ Hk (nth_error h0) ops _ _ R)), (proj1 (use_run _ _ Hk (nth_error h0') ops _ _ R')). reflexivity.
Qed.
Print Assumptions C14_order_irrelevant.
Example C14_hyp : let kvrs := [((3, 30), 5); ((1, 10), 2 ^ 38); ((2, 20), 0)] in let impl := implOrdered Z.ltb Z.eqb in
  distinct_keys Z.ltb (map fst kvrs) /\ fst (walk Iterate (snd (NewSkipListFromMap 0 0 impl kvrs ([], mkSL 0 0 None [])))) = Ok [(1, 10); (2, 20); (3, 30)].
Proof.
  cbn zeta. split; [|vm_compute; reflexivity]. intros i j p q NE Hi Hj.
  destruct i as [|[|[|i]]]; [| | |destruct i; discriminate]; (destruct j as [|[|[|j]]]; [| | |destruct j; discriminate]); try congruence; cbn in Hi, Hj; injection Hi as <-; injection Hj as <-; cbn; auto.
Qed.
