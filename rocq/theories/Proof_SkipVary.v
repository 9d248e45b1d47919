(** A SkipList whose order changes from call to call: the structure holds for any
    comparisons (Proof_SkipListAny.v), the contents are followed here. *)
From Coq Require Import Sorted.
From Verif Require Import BaseLemmas Spec Trace Spec_List Spec_Map Nodes Proof_Nodes Model_SkipList Proof_SkipList Proof_Map Proof_SkipListAny Props_SkipList Props_SkipListNaN Spec_SkipVary Model_SkipVary.
Set Default Proof Using "Type".
Local Arguments zlen : simpl never.

Section Vary.
Context {K V St : Type}.
Notation heap := (list (slnode K V)).
Lemma put_kvs h0 hd A c B (s : heap * sklist) v : rep h0 hd (A ++ c :: B) s -> kvs (put (ca c) v (A ++ c :: B)) = kvs A ++ (ck c, v) :: kvs B.
Proof.
  intros R. pose proof (rep_nodup _ _ _ _ R) as ND.
  assert (PA : forall X : list (@cell K V), ~ In (ca c) (addrs X) -> put (ca c) v X = X).
  { intros X. induction X as [|x X IH]; auto. cbn. intros N. destruct (Nat.eqb_spec (ca x) (ca c)); [tauto|]. f_equal. apply IH. tauto. }
  rewrite addrs_app in ND. apply NoDup_remove_2 in ND. rewrite in_app_iff in ND.
  unfold put. rewrite map_app. cbn [map]. rewrite Nat.eqb_refl. fold (put (ca c) v A) (put (ca c) v B). rewrite !PA by (unfold addrs; tauto). rewrite kvs_app. reflexivity.
Qed.
Lemma parts_fits cmp k (A B : list (@cell K V)) : parts (fun a b => cmp a b =? 0) (fun a b => 0 <? cmp a b) k A B -> fits cmp k (kvs A) (kvs B).
Proof.
  intros [L Bl]. split.
  - destruct L as [->|(A' & c & -> & [P1 P2])]; [now left|]. right. exists (kvs A'), (ck c, cv c). rewrite kvs_app. split; auto. cbn [fst]. cbn in P1, P2. lia.
  - destruct B as [|c B]; [now left|]. right. exists (ck c, cv c), (kvs B). split; auto. cbn [fst]. cbn in Bl. lia.
Qed.
Lemma vary_call h0 hd ps (s : heap * sklist) cmp (o : mop K V St) : rep h0 hd ps s ->
  exists ps', rep h0 hd ps' (snd (map_step (implFunc cmp) o s)) /\ loose (kvs ps) (cmp, o) (fst (map_step (implFunc cmp) o s)) (kvs ps').
Proof.
  intros R. pose proof (func_spec (V := V) cmp) as SP. destruct s as [h l]. destruct o; cbn [map_step loose]; unfold show.
  - destruct (Insert_ok _ _ _ SP h0 hd ps h l k v r R) as [(c & h' & l' & I & Hc & E & R')|(A & c & B & h' & l' & -> & Pt & Ek & Ev & _ & NI & E & R')]; rewrite E; cbn [omap fst snd]; eexists; (split; [exact R'|]); split; auto.
    + right. destruct (in_split _ _ I) as (A & B & ->). exists (kvs A), (ck c), (cv c), (kvs B). split; [now rewrite kvs_app|]. split; [cbn in Hc; lia|]. eapply put_kvs; eauto.
    + left. exists (kvs A), (kvs B). split; [now rewrite kvs_app|]. split; [now apply parts_fits|]. unfold kvs. rewrite map_app. cbn [map]. now rewrite Ek, Ev.
  - destruct (Remove_ok _ _ _ SP h0 hd ps h l k R) as (A & B & h' & l' & -> & _ & _ & H).
    destruct B as [|c B]; [|destruct (cmp (ck c) k =? 0) eqn:Ec]; [destruct H as [E R']|destruct H as (E & R' & _)|destruct H as [E R']]; rewrite E; cbn [omap fst snd]; eexists; (split; [exact R'|]); auto.
    right. exists (kvs A), (ck c, cv c), (kvs B). rewrite !kvs_app. split; [reflexivity|]. split; [cbn; lia|]. auto.
  - destruct (Clear_ok h0 hd ps h l R) as (s' & E & R'). rewrite E. cbn [omap fst snd]. exists []. auto.
  - exists ps. split; auto. split; auto. pose proof (rep_lenv _ _ _ _ R) as E. destruct (Len (h, l)) as [r s1]. cbn [fst snd] in *. now subst r.
  - exists ps. split; auto. split; auto. pose proof (r_len _ _ _ _ R) as E. cbn in E |- *. rewrite E. unfold zlen. now destruct ps.
  - unfold find_get. destruct (Find_any _ _ _ SP h0 hd ps h l k R) as (p & E & [->|(c & I & -> & Hc)]); rewrite (bind_eq _ _ _ _ _ E); cbn [is_nil].
    + exists ps. split; [exact R|]. split; auto.
    + rewrite (bind_eq _ _ _ _ _ (ld_value_ok _ _ _ _ _ _ (rep_cell _ _ _ _ _ _ R I))). exists ps. split; [exact R|]. split; auto. right. exists (ck c), (cv c). split; [unfold kvs; apply in_map_iff; eauto|]. split; [cbn in Hc; lia|reflexivity].
  - unfold Has. destruct (find_any _ _ _ SP h0 hd ps h l k R) as (p & E & H). rewrite (bind_eq _ _ _ _ _ E). exists ps. split; [exact R|]. split; auto. destruct H as [->|(c & I & -> & Hc)]; [now left|]. right. split; auto. exists (ck c, cv c). split; [unfold kvs; apply in_map_iff; eauto|]. cbn in *. lia.
  - unfold find_set. destruct (Find_any _ _ _ SP h0 hd ps h l k R) as (p & E & [->|(c & I & -> & Hc)]); rewrite (bind_eq _ _ _ _ _ E); cbn [is_nil].
    + exists ps. split; [exact R|]. now left.
    + rewrite (bind_eq _ _ _ _ _ (st_value_ok _ _ _ _ _ (rep_cell _ _ _ _ _ _ R I))). cbn [ret omap fst snd]. exists (put (ca c) v ps). split; [apply rep_put; auto; now apply in_map|]. right.
      destruct (in_split _ _ I) as (A & B & ->). exists (kvs A), (ck c), (cv c), (kvs B). split; [now rewrite kvs_app|]. split; [cbn in Hc; lia|]. split; auto. eapply put_kvs; eauto.
  - destruct (lower_any _ _ _ SP h0 hd ps h l k R) as (A & B & -> & E). rewrite (walk_all h0 hd A B); auto; [|unfold LowerBound; now rewrite (bind_eq _ _ _ _ _ E)]. cbn [omap fst snd]. exists (A ++ B). split; auto. split; auto. exists (kvs A), (kvs B). rewrite kvs_app. auto.
  - destruct (upper_any _ _ _ SP h0 hd ps h l k R) as (A & B & -> & E). rewrite (walk_all h0 hd A B); auto; [|unfold UpperBound; now rewrite (bind_eq _ _ _ _ _ E)]. cbn [omap fst snd]. exists (A ++ B). split; auto. split; auto. exists (kvs A), (kvs B). rewrite kvs_app. auto.
  - destruct (lower_any _ _ _ SP h0 hd ps h l first R) as (A1 & B1 & E1 & El). destruct (upper_any _ _ _ SP h0 hd ps h l last R) as (A2 & B2 & E2 & Eu).
    assert (Ew : walk (FindRange (implFunc cmp) first last) (h, l) = iter_loop (Datatypes.S (length h)) (firstp B1, firstp B2) [] (h, l)).
    { unfold walk. rewrite bind_fuel. unfold FindRange. erewrite bind_eq; [|rewrite (bind_eq _ _ _ _ _ El), (bind_eq _ _ _ _ _ Eu); reflexivity]. reflexivity. }
    rewrite Ew. pose proof (rep_fuel _ _ _ _ _ R) as Lf. assert (Es : A1 ++ B1 = A2 ++ B2) by congruence. exists ps.
    destruct (split_two _ _ _ _ Es) as [(D & EA & EB)|(d & D & EA & EB)].
    + rewrite EB. rewrite (iter_loop_ok h0 hd D B2 h l A1).
      * cbn [omap fst snd app]. split; auto. split; auto. right. exists (kvs A1), (kvs D), (kvs B2). rewrite E1, EB, !kvs_app. auto.
      * rewrite <- EB, <- E1. exact R.
      * rewrite E1, EB, !app_length in Lf. lia.
    + rewrite EB. cbn [firstp]. rewrite (iter_loop_panic h0 hd B1 (ca d) h l A1); [cbn [omap fst snd]; auto| | |].
      * rewrite <- E1. exact R.
      * intros I. rewrite E1, EA in R. pose proof (rep_nodup _ _ _ _ R) as ND. rewrite <- app_assoc in ND. rewrite addrs_app in ND. apply NoDup_app_r in ND. cbn in ND. apply NoDup_cons_iff in ND as [NI _]. apply NI. unfold addrs in *. rewrite map_app. apply in_app_iff. now right.
      * rewrite E1, app_length in Lf. lia.
  - rewrite (walk_all h0 hd [] ps); auto; [cbn [omap fst snd]; eauto|]. eapply iterate_ok; eauto.
  - rewrite (ForEach_ok cb h0 hd ps h l st R). cbn [omap fst snd]. eauto.
  - rewrite (ForEachIf_ok cb h0 hd ps h l st R). cbn [omap fst snd]. eauto.
  - destruct (ForEachMutable_ok cb h0 hd ps h l st R) as (s' & E & R'). rewrite E. destruct (mut_kvs cb ps st) as [Ek _]. rewrite Ek. cbn [omap fst snd]. eauto.
  - destruct (ForEachMutableIf_ok cb h0 hd ps h l st R) as (s' & E & R'). rewrite E. destruct (mutif_kvs cb ps st) as [Ek _]. rewrite Ek. cbn [omap fst snd]. eauto.
Qed.
Lemma vary_run h0 hd (ops : list ((K -> K -> Z) * mop K V St)) ps (s : heap * sklist) : rep h0 hd ps s ->
  exists ps', rep h0 hd ps' (snd (run vary_step ops s)) /\ accepts loose (kvs ps) ops (fst (run vary_step ops s)) (kvs ps').
Proof.
  intros R. destruct (run_accepts (vary_step (St := St)) loose (fun a s => exists ps, a = kvs ps /\ rep h0 hd ps s)) with (ops := ops) (a := kvs ps) (s := s) as (a' & Ha & ps' & -> & R').
  - intros a s1 [c o] (p & -> & R1). destruct (vary_call h0 hd p s1 c o R1) as (p' & R2 & L). exists (kvs p'). split; [exact L|]. exists p'. auto.
  - eauto.
  - eauto.
Qed.

(** Calls that insert nothing keep any order of the keys. *)
Lemma ksorted_app_del (lt : K -> K -> bool) A (p : K * V) B : ksorted lt (A ++ p :: B) -> ksorted lt (A ++ B).
Proof.
  unfold ksorted. induction A as [|a A IH]; cbn; intros S.
  - now inversion S.
  - apply StronglySorted_inv in S as [S F]. constructor; [now apply IH|]. rewrite Forall_app in *. destruct F as [F1 F2]. split; auto. now inversion F2.
Qed.
Lemma loose_sorted (lt : K -> K -> bool) a co r (a' : list (K * V)) : (forall k v n, snd co <> MInsert k v n) -> loose (St := St) a co r a' -> ksorted lt a ->
  ksorted lt a' /\ (forall k, In k (map fst a') -> In k (map fst a)).
Proof.
  destruct co as [cmp o]. cbn [snd]. intros N L S.
  assert (Same : a' = a -> ksorted lt a' /\ (forall k, In k (map fst a') -> In k (map fst a))) by (intros ->; auto).
  assert (Keys : map fst a' = map fst a -> ksorted lt a' /\ (forall k, In k (map fst a') -> In k (map fst a))). { intros E. split; [apply (ksorted_keys lt a); auto|now rewrite E]. }
  destruct o; cbn [loose] in L; try (apply Same; tauto).
  - exfalso. eapply N; eauto.
  - destruct L as [(_ & ->)|(A & p & B & -> & _ & _ & ->)]; auto. split; [eapply ksorted_app_del; eauto|]. intros x. rewrite !map_app. cbn. rewrite !in_app_iff. cbn. tauto.
  - destruct L as [_ ->]. split; [constructor|contradiction].
  - destruct L as [(_ & ->)|(A & k' & v' & B & -> & _ & _ & ->)]; auto. apply Keys. rewrite !map_app. reflexivity.
  - apply Keys. assert (G : forall l st1, map fst (fst (map_st (fun st p => let '(v, st') := cb st p in ((fst p, v), st')) st1 l)) = map fst l).
    { clear. induction l as [|x l IH]; intros st1; cbn [map_st]; auto. destruct (cb st1 x) as [v st2]. specialize (IH st2). destruct (map_st _ st2 l) as [m st3]. cbn in *. now rewrite IH. }
    specialize (G a st). destruct (map_st _ st a) as [m st2]. cbn [fst] in G. destruct L as [_ ->]. exact G.
  - apply Keys. assert (G : forall l st1, map fst (fst (map_while (fun st p => let '(v, go, st') := cb st p in ((fst p, v), go, st')) st1 l)) = map fst l).
    { clear. induction l as [|x l IH]; intros st1; cbn [map_while]; auto. destruct (cb st1 x) as [[v go] st2]. destruct go; [|reflexivity]. specialize (IH st2). destruct (map_while _ st2 l) as [m st3]. cbn in *. now rewrite IH. }
    specialize (G a st). destruct (map_while _ st a) as [m st2]. cbn [fst] in G. destruct L as [_ ->]. exact G.
Qed.
Lemma accepts_sorted (lt : K -> K -> bool) ops : forall a rs (a' : list (K * V)), accepts (loose (St := St)) a ops rs a' -> (forall c k v n, ~ In (c, MInsert k v n) ops) -> ksorted lt a ->
  ksorted lt a' /\ (forall k, In k (map fst a') -> In k (map fst a)).
Proof.
  induction ops as [|[c o] ops IH]; intros a rs a' H N S.
  - apply accepts_nil_inv in H as [_ ->]. auto.
  - apply accepts_cons_inv in H as (r & a1 & rs' & -> & L & H). destruct (loose_sorted lt a (c, o) r a1) as [S1 I1]; auto.
    + cbn [snd]. intros k v n ->. apply (N c k v n). now left.
    + destruct (IH a1 rs' a' H) as [S2 I2]; auto. intros c' k v n I. apply (N c' k v n). now right.
Qed.
End Vary.
