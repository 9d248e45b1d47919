(** Property C127 (skiplist_set.go, NewSkipListSetFunc with a comparison function whose
    answers change between calls). *)
From Coq Require Import Sorted.
From Verif Require Import BaseLemmas Spec Trace Spec_List Spec_Map Spec_Set Nodes Proof_Nodes Model_SkipList Model_SkipListSet Proof_SkipList Proof_Map Proof_SkipListAny Props_SkipList Props_SkipListNaN Props_SkipListSet
  Spec_SetVary Model_SetVary Proof_SetVary.
Set Default Proof Using "Type".
Local Arguments zlen : simpl never.

Definition set_vary_after {K St} (ops : list ((K -> K -> Z) * sop K St)) zk h0 l0 : list (slnode K unit) * sklist := snd (run set_vary_step ops (new_set zk h0 l0)).
Lemma new_rep {K} (zk : K) h0 l0 : rep (nth_error h0) (length h0) [] (new_set zk h0 l0).
Proof. unfold new_set, NewSkipListSet. exact (fresh_rep zk tt h0 l0). Qed.
Lemma keys_shown {K} h0 hd ps (s : list (slnode K unit) * sklist) : rep h0 hd ps s -> fst (set_Keys s) = Ok (keys ps).
Proof. intros R. destruct (set_vary_call (St := unit) h0 hd ps s (fun _ _ => 0) SKeys R) as (ps' & _ & E & _). cbn [set_step] in E. unfold show in E. destruct (set_Keys s) as [[l| |] s']; cbn in *; congruence. Qed.

(** *** C127 A SkipListSet whose order changes *)
(** Every call returns, but the walk over FindRange; Keys, Len, IsEmpty and ForEach show
    exactly the elements; Insert says true and puts one element in between neighbours that
    compare right with it, or says false and changes nothing, and then there is an element
    that compares equal; Remove says true and takes out one element that compares equal,
    or says false and changes nothing; InsertN and RemoveN do so for each key and count
    the successes. *)
Theorem C127_changing_order : forall K St (zk : K) h0 l0 (ops : list ((K -> K -> Z) * sop K St)),
  exists a, accepts set_loose [] ops (fst (run set_vary_step ops (new_set zk h0 l0))) a /\ fst (set_Keys (set_vary_after ops zk h0 l0)) = Ok a.
Proof.
  intros K St zk h0 l0 ops. destruct (set_vary_run (nth_error h0) (length h0) ops [] _ (new_rep zk h0 l0)) as (ps & R & A). exists (keys ps). split; [exact A|]. eapply keys_shown; exact R.
Qed.
Print Assumptions C127_changing_order.
(** Whenever the elements stand in ascending order of the comparison function of the
    moment, the set is again the sorted set, as long as the function stays. *)
Theorem C127_sorted_again : forall K St (zk : K) h0 l0 (ops : list ((K -> K -> Z) * sop K St)) cmp a, three_way cmp ->
  let s := set_vary_after ops zk h0 l0 in let lt := fun a b => cmp a b <? 0 in
  fst (set_Keys s) = Ok a -> StronglySorted (fun x y => lt x y = true) a ->
  forall rest : list (sop K St), fst (run (set_step (implFunc cmp)) rest s) = fst (run (set_spec lt) rest a).
Proof.
  intros K St zk h0 l0 ops cmp a TW. cbn zeta. intros Ea S rest. destruct (set_vary_run (nth_error h0) (length h0) ops [] _ (new_rep zk h0 l0)) as (ps & R & _). unfold set_vary_after in *.
  rewrite (keys_shown _ _ _ _ R) in Ea. injection Ea as <-. assert (Hk : kind (V := unit) (implFunc cmp) (fun a b => cmp a b <? 0)) by (right; exists cmp; auto).
  apply (set_run (implFunc cmp) _ Hk (nth_error h0)). exists (kvs ps). split; [reflexivity|]. exists (length h0), ps. split; [reflexivity|]. split; [exact R|]. now apply sorted_keys.
Qed.
Print Assumptions C127_sorted_again.
(** A set made with one order, cmp, and used while the elements compare in other ways, but
    not inserted into, is the sorted set of what is left when they compare as before. *)
Theorem C127_order_restored : forall K St (zk : K) h0 l0 (ops1 : list (sop K St)) (ops2 : list ((K -> K -> Z) * sop K St)) cmp, three_way cmp ->
  (forall c o, In (c, o) ops2 -> no_insert o) ->
  let lt := fun a b => cmp a b <? 0 in let a1 := snd (run (set_spec lt) ops1 []) in
  let s2 := set_vary_after (map (fun o => (cmp, o)) ops1 ++ ops2) zk h0 l0 in
  exists a2, fst (set_Keys s2) = Ok a2 /\ incl a2 a1 /\
    forall rest : list (sop K St), fst (run (set_step (implFunc cmp)) rest s2) = fst (run (set_spec lt) rest a2).
Proof.
  intros K St zk h0 l0 ops1 ops2 cmp TW N. cbn zeta. set (lt := fun a b => cmp a b <? 0).
  assert (Hk : kind (V := unit) (implFunc cmp) lt) by (right; exists cmp; auto).
  assert (E1 : forall s, run (set_vary_step (St := St)) (map (fun o => (cmp, o)) ops1) s = run (set_step (implFunc cmp)) ops1 s).
  { clear. induction ops1 as [|o ops1 IH]; intros s; cbn [map run]; auto. unfold set_vary_step at 1. cbn [fst snd]. destruct (set_step (implFunc cmp) o s) as [r s1]. now rewrite IH. }
  destruct (set_run (implFunc cmp) lt Hk (nth_error h0) ops1 [] _ (new_SRel (implFunc cmp) lt Hk zk h0 l0)) as [_ R1]. pose proof (SRel_sorted _ _ Hk _ _ _ R1) as S1. destruct R1 as (mm & Em & hd & ps & Ek & R & S). unfold set_after in R.
  destruct (set_vary_run (nth_error h0) hd ops2 ps _ R) as (ps2 & R2 & A).
  destruct (set_accepts_sorted (fun x y => lt x y = true) ops2 _ _ _ A N) as [S2 I2].
  { clear -S Ek. unfold keys. rewrite Ek. unfold ksorted in S. clear Ek. induction S as [|p l S IH F]; cbn; constructor; auto. now rewrite Forall_map. }
  assert (E : set_vary_after (map (fun o => (cmp, o)) ops1 ++ ops2) zk h0 l0 = snd (run set_vary_step ops2 (snd (run (set_step (implFunc cmp)) ops1 (new_set zk h0 l0))))). { unfold set_vary_after. rewrite run_app. now rewrite E1. }
  rewrite E. exists (keys ps2). split; [eapply keys_shown; exact R2|]. split; [rewrite <- Em, <- Ek; exact I2|]. intros rest.
  apply (set_run (implFunc cmp) lt Hk (nth_error h0)). exists (kvs ps2). split; [reflexivity|]. exists hd, ps2. split; [reflexivity|]. split; [exact R2|]. now apply sorted_keys.
Qed.
Print Assumptions C127_order_restored.

(** Expected: Remove takes out every element it is asked to take out, even while the order
    is not the one the elements were inserted with. *)
Definition C127_expected_removes : Prop := forall (ops : list ((Z -> Z -> Z) * sop Z unit)) cmp k a, three_way cmp ->
  let s := set_vary_after ops 0 [] (mkSL 0 0 None []) in
  fst (set_Keys s) = Ok a -> In k a -> fst (set_Remove (implFunc cmp) k s) = Ok true.
Definition upwards (a b : Z) : Z := a - b.
Definition downwards (a b : Z) : Z := b - a.
Theorem C127_refuted_removes : ~ C127_expected_removes.
Proof.
  intros H. assert (E : fst (set_Remove (implFunc downwards) 3 (set_vary_after [(upwards, SInsertN [(1, 2 ^ 39); (2, 2 ^ 39); (3, 2 ^ 39)] : sop Z unit)] 0 [] (mkSL 0 0 None []))) = Ok true).
  { eapply H; [constructor; unfold downwards; intros; lia|vm_compute; reflexivity|cbn; auto]. }
  vm_compute in E. discriminate E.
Qed.
Print Assumptions C127_refuted_removes.

(** Concrete case: the order is reversed while 1, 2 and 3 are in.  3 is not found and goes
    in a second time, in front; with the second 3 gone and the first order back nothing is
    lost. *)
Example C127_hyp : three_way upwards /\ three_way downwards /\
  (forall c o, In (c, o) [(downwards, SRemove 2 : sop Z unit); (fun _ _ => 0, SRemoveN [9])] -> no_insert o) /\
  fst (set_Keys (set_vary_after (map (fun o => (upwards, o)) [SInsertN [(1, 2 ^ 39); (2, 2 ^ 39); (3, 2 ^ 39)]] ++ [(downwards, SRemove 2 : sop Z unit); (fun _ _ => 0, SRemoveN [9])]) 0 [] (mkSL 0 0 None []))) = Ok [2; 3].
Proof.
  split; [constructor; unfold upwards; intros; lia|]. split; [constructor; unfold downwards; intros; lia|]. split; [|vm_compute; reflexivity].
  intros c o [E|[E|[]]]; injection E as <- <-; exact I.
Qed.
Example C127_runs :
  fst (run set_vary_step [(upwards, SInsertN [(1, 2 ^ 39); (2, 2 ^ 39); (3, 2 ^ 39)]); (downwards, SHas 3); (downwards, SInsertN [(3, 2 ^ 39); (3, 2 ^ 39)]); (downwards, SKeys); (downwards, SRemoveN [3; 2; 3]); (upwards, SKeys); (upwards, SHas 2); (upwards, SInsert 0 (2 ^ 39)); (upwards, SKeys)]
    (new_set 0 [] (mkSL 0 0 None []))) =
  [Ok (SInt 3); Ok (SBool false); Ok (SInt 1); Ok (SSeq [3; 1; 2; 3]); Ok (SInt 1); Ok (SSeq [1; 2; 3]); Ok (SBool true); Ok (SBool true); Ok (@SSeq Z unit [0; 1; 2; 3])].
Proof. vm_compute. reflexivity. Qed.
