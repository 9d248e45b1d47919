(** What an iterator kept over changes of its skip list still visits. *)
From Coq Require Import Sorted.
From Verif Require Import BaseLemmas Spec Trace Spec_List Spec_Map Nodes Proof_Nodes Model_SkipList Proof_SkipList Proof_Map Proof_SkipListAny Spec_SkipIter Model_SkipIter Proof_SkipIter.
Set Default Proof Using "Type".
Local Arguments zlen : simpl never. Local Arguments pload : simpl never.

Section Lists.
Context {T : Type}.
Lemma filter_le (P Q : T -> bool) l : (forall x, In x l -> P x = true -> Q x = true) -> (length (filter P l) <= length (filter Q l))%nat.
Proof.
  induction l as [|x l IH]; intros H; cbn; auto. specialize (IH (fun y I => H y (or_intror I))). pose proof (H x (or_introl eq_refl)) as Hx. destruct (P x), (Q x); cbn; try lia; discriminate (Hx eq_refl).
Qed.
Lemma filter_lt (P Q : T -> bool) l x0 : (forall x, In x l -> P x = true -> Q x = true) -> In x0 l -> P x0 = false -> Q x0 = true -> (length (filter P l) < length (filter Q l))%nat.
Proof.
  induction l as [|x l IH]; intros H I Hp Hq; [contradiction|]. cbn. pose proof (filter_le P Q l (fun y I => H y (or_intror I))) as Le. destruct I as [->|I].
  - rewrite Hp, Hq. cbn. lia.
  - specialize (IH (fun y I => H y (or_intror I)) I Hp Hq). pose proof (H x (or_introl eq_refl)) as Hx. destruct (P x), (Q x); cbn; try lia; discriminate (Hx eq_refl).
Qed.
End Lists.

Section Stale.
Context {K V : Type}.
Variable lt : K -> K -> bool.
Hypothesis SW : strict_weak lt.
Notation heap := (list (slnode K V)).
Notation estate := (estate K V).
Notation entry := (nat * (K * V))%type.
Implicit Types (e : estate).
Definition key (x : entry) : K := fst (snd x).
Definition all e : list entry := e_live e ++ map fst (e_gone e).
Definition keyed e : list (nat * K) := map (fun x => (fst x, key x)) (all e).
Definition wf e : Prop := ksorted lt (map snd (e_live e)) /\ NoDup (map fst (all e)).
(** The element behind a removed one has a greater key. *)
Definition forward e : Prop := forall g j, In g (e_gone e) -> snd g = Some j -> exists k, In (j, k) (keyed e) /\ lt (key (fst g)) k = true.
Lemma XR_wf f fr hd ps e s : XR lt f fr hd ps e s -> wf e.
Proof. intros X. split; [apply X|]. unfold all. rewrite map_app. apply (x_nodup _ _ _ _ _ _ _ X). Qed.

Lemma map_spec_keys {St} (o : mop K V St) m : keeps_shape o = true -> match o with MInsert _ _ _ => True | _ => map fst (snd (map_spec lt o m)) = map fst m end.
Proof.
  destruct o; cbn; intros E; auto; try discriminate.
  - unfold set_value. rewrite map_map. apply map_ext. intros p. now destruct (eqv lt (fst p) k).
  - pose proof (map_st_fst cb m st) as Em. destruct (map_st _ st m) as [m' st']. exact Em.
  - pose proof (map_while_fst cb m st) as Em. destruct (map_while _ st m) as [m' st']. exact Em.
Qed.
Lemma repair_live m e : map fst m = map fst (map snd (e_live e)) -> map (fun x => (fst x, key x)) (e_live (repair m e)) = map (fun x => (fst x, key x)) (e_live e).
Proof.
  unfold repair. cbn [e_live]. revert m. induction (e_live e) as [|[i p] l IH]; intros [|q m] H; cbn in *; try discriminate; auto. injection H as E H. rewrite (IH m H). unfold key. cbn. now rewrite E.
Qed.
Lemma keyed_app e : keyed e = map (fun x => (fst x, key x)) (e_live e) ++ map (fun x => (fst x, key x)) (map fst (e_gone e)).
Proof. unfold keyed, all. apply map_app. Qed.
Lemma repair_keyed m e : map fst m = map fst (map snd (e_live e)) -> keyed (repair m e) = keyed e.
Proof. intros H. rewrite !keyed_app, (repair_live m e H). reflexivity. Qed.
Lemma write_key i v (x : entry) : fst (write i v x) = fst x /\ key (write i v x) = key x.
Proof. unfold write, key. now destruct (Nat.eqb (fst x) i). Qed.
Lemma store_live i v e : map (fun x => (fst x, key x)) (e_live (store i v e)) = map (fun x => (fst x, key x)) (e_live e).
Proof. unfold store. cbn. rewrite map_map. apply map_ext. intros x. now destruct (write_key i v x) as [-> ->]. Qed.
Lemma store_keyed i v e : keyed (store i v e) = keyed e.
Proof.
  rewrite !keyed_app, store_live. f_equal. unfold store. cbn [e_gone]. rewrite !map_map. apply map_ext. intros g. cbn [fst]. now destruct (write_key i v (fst g)) as [-> ->].
Qed.
Lemma insert_new_live k v e : has lt k (map snd (e_live e)) = false -> forall x, In x (e_live e) -> In x (filter (fun y => lt (fst (snd y)) k) (e_live e) ++ (e_made e, (k, v)) :: filter (fun y => lt k (fst (snd y))) (e_live e)).
Proof.
  intros H x I. assert (N : eqv lt (fst (snd x)) k = false). { destruct (eqv lt (fst (snd x)) k) eqn:E; auto. rewrite <- H. unfold has. symmetry. apply existsb_exists. exists (snd x). split; auto. now apply in_map. }
  unfold eqv in N. apply in_app_iff. cbn [In]. rewrite !filter_In. destruct (lt (fst (snd x)) k) eqn:E1; [auto|]. destruct (lt k (fst (snd x))) eqn:E2; [auto|discriminate].
Qed.
Lemma leaving_in (p : K * V -> bool) (l : list entry) g : In g (leaving p l) -> exists L R, l = L ++ fst g :: R /\ snd g = first_id R.
Proof.
  induction l as [|x l IH]; cbn; [contradiction|]. assert (T : In g (leaving p l) -> exists L R, x :: l = L ++ fst g :: R /\ snd g = first_id R). { intros I. destruct (IH I) as (L & R & E & En). exists (x :: L), R. rewrite E. auto. }
  destruct (p (snd x)); auto. intros [<-|I]; auto. exists [], l. auto.
Qed.
Lemma in_leaving (p : K * V -> bool) (l : list entry) x : In x l -> p (snd x) = true -> In x (map fst (leaving p l)).
Proof. induction l as [|y l IH]; cbn; [auto|]. intros [->|I] H; [rewrite H; now left|]. destruct (p (snd y)); cbn; auto. Qed.
Lemma leaving_sub (p : K * V -> bool) (l : list entry) x : In x (map fst (leaving p l)) -> In x l.
Proof. induction l as [|y l IH]; cbn; auto. destruct (p (snd y)); cbn; intuition. Qed.
Lemma leaving_true (p : K * V -> bool) (l : list entry) x : In x (map fst (leaving p l)) -> p (snd x) = true.
Proof. induction l as [|y l IH]; cbn; [contradiction|]. destruct (p (snd y)) eqn:E; cbn; auto. intros [<-|I]; auto. Qed.
Lemma retire_all p e x : In x (all (retire p e)) <-> In x (all e).
Proof.
  unfold all, retire. cbn [e_live e_gone]. rewrite map_app, !in_app_iff, filter_In. split.
  - intros [[I _]|[I|I]]; auto. left. now apply leaving_sub in I.
  - intros [I|I]; auto. destruct (p (snd x)) eqn:E; auto using in_leaving.
Qed.
Lemma in_keyed e j k : In (j, k) (keyed e) <-> exists v, In (j, (k, v)) (all e).
Proof.
  unfold keyed. rewrite in_map_iff. split.
  - intros ([i [k' v]] & E & I). injection E as -> <-. exists v. exact I.
  - intros (v & I). exists (j, (k, v)). auto.
Qed.
Lemma retire_keyed p e x : In x (keyed (retire p e)) <-> In x (keyed e).
Proof. destruct x as [j k]. rewrite !in_keyed. split; intros (v & I); exists v; now apply (retire_all p e). Qed.
Lemma sorted_next m l1 x l2 j l3 : ksorted (V := V) lt m -> m = map snd (l1 ++ x :: (j :: l2) ++ l3) -> lt (key x) (key j) = true.
Proof.
  intros S ->. rewrite map_app in S. apply SS_app_inv in S as (_ & S & _). cbn in S. inversion S as [|? ? _ F]; subst. now inversion F; subst.
Qed.
Lemma retire_forward p e : wf e -> forward e -> forward (retire p e).
Proof.
  intros [S _] F g j I E. cbn [retire e_gone] in I. apply in_app_iff in I as [I|I].
  - apply leaving_in in I as (L & R & El & En). rewrite E in En. destruct R as [|x R]; [discriminate|]. injection En as ->. exists (key x). split.
    + apply retire_keyed. destruct x as [i [k v]]. apply in_keyed. exists v. unfold all. rewrite El. apply in_app_iff. left. apply in_app_iff. right. right. now left.
    + apply (sorted_next (map snd (e_live e)) L _ R x []); auto. now rewrite El, app_nil_r.
  - destruct (F g j I E) as (k & Ik & H). exists k. split; auto. now apply retire_keyed.
Qed.
(** One call: keys move on, no new ones but inserted ones. *)
Notation keys l := (map (fun x : entry => (fst x, key x)) l).
Record grows {St} (o : xop K V St) e e' : Prop := mkGrows {
  g_old : incl (keyed e) (keyed e');
  g_new : forall j k, In (j, k) (keyed e') -> In (j, k) (keyed e) \/ inserts o k;
  g_fresh : forall j k, In (j, k) (keys (e_live e')) -> In (j, k) (keys (e_live e)) \/ inserts o k;
  g_live : forall j k, In (j, k) (keys (e_live e)) -> ~ removes lt o k -> In (j, k) (keys (e_live e'));
  g_gone : forall j k, In (j, k) (keys (map fst (e_gone e'))) -> In (j, k) (keys (map fst (e_gone e))) \/ removes lt o k }.
Lemma grows_refl {St} (o : xop K V St) e : grows o e e.
Proof. constructor; auto. apply incl_refl. Qed.
Lemma call_forward {St} (o : mop K V St) e : wf e -> forward e -> grows (XCall o) e (calls lt o e) /\ forward (calls lt o e).
Proof using SW.
  intros W F. assert (Rp : forall m, map fst m = map fst (map snd (e_live e)) -> grows (XCall o) e (repair m e) /\ forward (repair m e)).
  { intros m Em. split.
    - constructor; rewrite ?(repair_keyed m e Em), ?(repair_live m e Em); auto. apply incl_refl.
    - intros g j I E. rewrite (repair_keyed m e Em). now apply F. }
  assert (Rt : forall p, (forall x, In x (e_live e) -> p (snd x) = true -> removes lt (XCall o) (key x)) -> grows (XCall o) e (retire p e) /\ forward (retire p e)).
  { intros p Hp. split; [|now apply retire_forward]. constructor.
    - intros x I. now apply retire_keyed.
    - intros j k I. left. now apply retire_keyed in I.
    - intros j k I. left. apply in_map_iff in I as (x & E & I). apply in_map_iff. exists x. split; auto. cbn [retire e_live] in I. now apply filter_In in I.
    - intros j k I N. apply in_map_iff in I as (x & E & I). injection E as <- <-. apply in_map_iff. exists x. split; auto. cbn [retire e_live]. apply filter_In. split; auto. destruct (p (snd x)) eqn:E; [exfalso; apply N; now apply Hp|auto].
    - intros j k I. cbn [retire e_gone] in I. rewrite map_app, map_app in I. apply in_app_iff in I as [I|I]; auto. right. apply in_map_iff in I as (x & E & I). injection E as <- <-. apply Hp; [now apply leaving_sub in I|]. now apply leaving_true in I. }
  pose proof (map_spec_keys o (map snd (e_live e))) as Mk. destruct o; try (apply Rp; exact (Mk eq_refl)); clear Mk; unfold calls; cbn zeta.
  - destruct (has lt k (map snd (e_live e))) eqn:Hh.
    + apply Rp. unfold insert. rewrite Hh. unfold set_value. rewrite map_map. apply map_ext. intros p. now destruct (eqv lt (fst p) k).
    + pose proof (insert_new_live k v e Hh) as Sub. set (e' := mkE _ _ _).
      assert (In1 : forall x, In x (all e) -> In x (all e')). { intros x I. unfold all in *. apply in_app_iff in I. apply in_app_iff. destruct I as [I|I]; [left; now apply Sub|now right]. }
      assert (Kd : incl (keyed e) (keyed e')). { intros [j k'] I. apply in_keyed in I as (w & I). apply in_keyed. exists w. auto. }
      split.
      * constructor; auto.
        -- intros j k' I. apply in_keyed in I as (w & I). unfold all in I. cbn [e' e_live e_gone] in I. rewrite !in_app_iff in I. cbn [In] in I. rewrite !filter_In in I. destruct I as [[[I _]|[E|[I _]]]|I].
           ++ left. apply in_keyed. exists w. apply in_app_iff. now left.
           ++ right. injection E as _ <- _. now exists v, r.
           ++ left. apply in_keyed. exists w. apply in_app_iff. now left.
           ++ left. apply in_keyed. exists w. apply in_app_iff. now right.
        -- intros j k' I. cbn [e' e_live] in I. rewrite map_app, in_app_iff in I. cbn [map In] in I. assert (Fl : forall P, In (j, k') (keys (filter P (e_live e))) -> In (j, k') (keys (e_live e))). { intros P J. apply in_map_iff in J as (x & E & J). apply in_map_iff. exists x. split; auto. now apply filter_In in J. }
           destruct I as [I|[E|I]]; eauto. right. injection E as _ <-. now exists v, r.
        -- intros j k' I _. apply in_map_iff in I as (x & E & I). apply in_map_iff. exists x. split; [auto|now apply Sub].
      * intros g j I E. destruct (F g j I E) as (k' & Ik & H). exists k'. auto.
  - apply Rt. intros x I H. left. exists k. auto.
  - apply Rt. now right.
Qed.
Lemma spec_forward {St} (o : xop K V St) st : wf (fst st) -> forward (fst st) -> grows o (fst st) (fst (snd (x_spec lt o st))) /\ forward (fst (snd (x_spec lt o st))).
Proof using SW.
  destruct st as [e vars]. cbn [fst]. intros W F. pose proof (grows_refl o e) as Gr.
  destruct o; cbn [x_spec snd fst declare]; auto; try (apply call_forward; auto); destruct (nth_error vars x) as [[[i|] en]|]; cbn [fst snd at_element declare]; auto.
  - destruct (next_of i e); auto.
  - destruct (pair_of i e); auto.
  - destruct (pair_of i e); auto.
  - split.
    + constructor; rewrite ?store_keyed, ?store_live; auto; [apply incl_refl|]. intros j k I. left. rewrite map_map in I. cbn [store e_gone] in I. rewrite map_map in I. rewrite map_map. erewrite map_ext; [exact I|]. intros g. cbn [fst snd]. now destruct (write_key i v (fst g)) as [-> ->].
    + intros g j I E. cbn [store e_gone] in I. apply in_map_iff in I as (g0 & <- & I). cbn [fst snd] in *. rewrite store_keyed. destruct (write_key i v (fst g0)) as [_ ->]. now apply F.
Qed.

(** The walk. *)
Lemma nth_pair e i k v p : wf e -> In (i, (k, v)) (all e) -> pair_of i e = Some p -> p = (k, v).
Proof. intros [_ ND] I E. unfold pair_of in E. rewrite (find_id_in _ i (k, v)) in E; auto. now injection E. Qed.
Lemma next_greater e i j p : wf e -> forward e -> pair_of i e = Some p -> next_of i e = Some (Some j) -> exists q, In (j, q) (all e) /\ lt (fst p) (fst q) = true.
Proof.
  intros W F Ep En. destruct W as [S ND]. unfold next_of in En. destruct (in_dec Nat.eq_dec i (map fst (e_live e))) as [I|NI].
  - apply in_map_iff in I as ([i' p'] & Ei & I). cbn in Ei. subst i'. apply in_split in I as (L & R & El).
    assert (NI : ~ In i (map fst L)). { unfold all in ND. rewrite El, <- app_assoc, map_app in ND. cbn in ND. apply NoDup_remove_2 in ND. intros I. apply ND. apply in_app_iff. now left. }
    rewrite El, behind_mid in En by auto. destruct R as [|[j' q] R]; [discriminate|]. injection En as ->. exists q.
    assert (I : In (i, p') (all e)) by (unfold all; rewrite El; apply in_app_iff; left; apply in_app_iff; right; now left). destruct p' as [k v]. apply (nth_pair e i k v p (conj S ND) I) in Ep. subst p. split.
    + unfold all. rewrite El. apply in_app_iff. left. apply in_app_iff. right. right. now left.
    + apply (sorted_next _ L (i, (k, v)) R (j, q) [] S). now rewrite El, app_nil_r.
  - rewrite behind_none in En by auto. destruct (find _ (e_gone e)) as [[[i' p'] n]|] eqn:Ef; [|discriminate]. cbn in En. injection En as ->. apply find_some in Ef as [Ig Ei]. cbn in Ei. apply Nat.eqb_eq in Ei. subst i'.
    destruct (F _ j Ig eq_refl) as (k' & Ik & H). apply in_keyed in Ik as (w & Ik). exists (k', w). split; auto. cbn [fst]. cbn in H. destruct p' as [k v]. rewrite (nth_pair e i k v p (conj S ND)); auto. unfold all. apply in_app_iff. right. apply (in_map fst) in Ig. exact Ig.
Qed.
Definition cnt e (k : K) : nat := length (filter (fun x => lt k (key x)) (all e)).
Lemma cnt_less e k j q : In (j, q) (all e) -> lt k (fst q) = true -> (cnt e (fst q) < cnt e k)%nat.
Proof using SW.
  intros I H. apply (filter_lt _ _ _ (j, q)); auto; [|apply (sw_irrefl lt SW)]. intros x _ Hx. eapply sw_trans; eauto.
Qed.
Lemma ids_all e : ids e = map fst (all e).
Proof. unfold ids, all. now rewrite map_app. Qed.
Lemma made_heap f fr hd ps e h l : XR lt f fr hd ps e (h, l) -> (length (all e) <= length h)%nat.
Proof.
  intros X. pose proof (x_nodup _ _ _ _ _ _ _ X) as ND. pose proof (x_ids _ _ _ _ _ _ _ X) as Id. rewrite <- (map_length fst (all e)), <- ids_all, <- (map_length f), <- (seq_length (length h) 0). apply NoDup_incl_length.
  - assert (Hi : forall i j, In i (ids e) -> In j (ids e) -> f i = f j -> i = j) by (intros i j Ii Ij; apply (x_inj _ _ _ _ _ _ _ X); now apply Id). clear Id X. induction ND as [|i l' NI ND IH]; cbn; constructor.
    + intros I. apply in_map_iff in I as (j & E & I). apply NI. rewrite (Hi i j); auto; [now left|now right].
    + apply IH. intros a b Ia Ib. apply Hi; now right.
  - intros a I. apply in_map_iff in I as (i & <- & I). apply Id in I. destruct (id_node _ _ _ _ _ _ _ _ i X I) as (p & q & n & _ & _ & Nd & _). apply in_seq. unfold nd in Nd. destruct (nth_error h (f i)) eqn:E; [|discriminate]. apply nth_lt in E. lia.
Qed.
Lemma live_split e i : In i (map fst (e_live e)) -> exists L p R, e_live e = L ++ (i, p) :: R.
Proof. intros I. apply in_map_iff in I as ([i' p] & E & I). cbn in E. subst i'. apply in_split in I as (L & R & E). eauto. Qed.
Lemma kvs_ff f (B : list (@cell K V)) R : map cc B = map (ff f) R -> kvs B = map snd R.
Proof. intros E. apply (f_equal (map snd)) in E. rewrite !map_map in E. exact E. Qed.
Lemma live_walk f fr hd ps e h l A p B E i fuel seen : XR lt f fr hd ps e (h, l) -> e_live e = A ++ ((i, p) :: B) ++ E -> (length ((i, p) :: B) < fuel)%nat ->
  iter_loop fuel (Some (f i), option_map f (first_id E)) seen (h, l) = (Ok (seen ++ map snd ((i, p) :: B)), (h, l)).
Proof.
  intros X El Lf. pose proof (x_live _ _ _ _ _ _ _ X) as Lv. rewrite El in Lv. apply cc_split in Lv as (A' & B' & -> & EA & EB). apply cc_split in EB as (B1 & E1 & -> & EB & EE).
  assert (Ln : length B1 = length ((i, p) :: B)) by (apply (f_equal (@length _)) in EB; now rewrite !map_length in EB).
  pose proof (iter_loop_ok fr hd B1 E1 h l A' fuel seen (x_rep _ _ _ _ _ _ _ X) ltac:(lia)) as W. rewrite (kvs_ff f B1 ((i, p) :: B) EB) in W. rewrite <- W. f_equal. rewrite (cc_first f E1 E EE).
  apply cc_cons in EB as (c & B2 & -> & Ea & _). cbn [app firstp]. now rewrite Ea.
Qed.
Lemma walk_stale f fr hd ps e h l : XR lt f fr hd ps e (h, l) -> forward e -> forall n i k v fuel seen, In (i, (k, v)) (all e) -> cnt e k = n -> (S n < fuel)%nat ->
  exists D L, iter_loop fuel (Some (f i), None) seen (h, l) = (Ok (seen ++ map snd (D ++ L)), (h, l)) /\ incl D (map fst (e_gone e)) /\ (exists P, e_live e = P ++ L) /\
    ksorted lt (map snd (D ++ L)) /\ (exists r, D ++ L = (i, (k, v)) :: r) /\ (In i (map fst (e_live e)) -> D = []).
Proof using SW.
  intros X F. pose proof (XR_wf _ _ _ _ _ _ X) as W. induction n as [n IH] using lt_wf_ind. intros i k v fuel seen I En Lf.
  destruct (in_dec Nat.eq_dec i (map fst (e_live e))) as [Iv|NI].
  - destruct (live_split e i Iv) as (A & p & B & El). assert (p = (k, v)) as ->.
    { assert (I2 : In (i, p) (all e)) by (unfold all; rewrite El; apply in_app_iff; left; apply in_app_iff; right; now left). destruct p as [k2 v2]. assert (E : pair_of i e = Some (k, v)) by (apply find_id_in; auto; apply W). symmetry. now apply (nth_pair e i k2 v2 _ W I2 E). }
    assert (S : ksorted lt (map snd ((i, (k, v)) :: B))). { destruct W as [S _]. rewrite El, map_app in S. now apply SS_app_inv in S. }
    exists [], ((i, (k, v)) :: B). cbn [app]. split; [|split; [intros x []|split; [eauto|split; [exact S|split; [eauto|auto]]]]].
    apply (live_walk f fr hd ps e h l A (k, v) B [] i fuel seen X); [now rewrite app_nil_r|]. enough (length B <= n)%nat by (cbn; lia).
    subst n. unfold cnt, all. rewrite El, <- app_assoc, !filter_app, !app_length. cbn [app filter]. change (key (i, (k, v))) with k. rewrite (sw_irrefl lt SW).
    rewrite (filter_all (fun x => lt k (key x)) B); [lia|]. cbn in S. inversion S as [|? ? _ FB]; subst. rewrite Forall_map in FB. exact FB.
  - assert (Li : (i < e_made e)%nat) by (apply (x_ids _ _ _ _ _ _ _ X); rewrite ids_all; apply (in_map fst) in I; exact I).
    assert (Ig : In (i, (k, v)) (map fst (e_gone e))). { unfold all in I. apply in_app_iff in I as [I|I]; auto. exfalso. apply NI. apply (in_map fst) in I. exact I. }
    destruct (id_node _ _ _ _ _ _ _ _ i X Li) as (p & q & m & Ep & Eq & Nd & Nx & Bd). pose proof (nth_pair e i k v p W I Ep) as ->. cbn [fst snd] in Nd.
    destruct fuel as [|fuel]; [lia|]. cbn [iter_loop]. unfold IsNotEnd, Key, Value, MoveToNext. cbn [fst snd peqb negb].
    rewrite (bind_eq _ _ _ _ _ (ld_key_ok _ _ _ _ _ _ Nd)), (bind_eq _ _ _ _ _ (ld_value_ok _ _ _ _ _ _ Nd)).
    erewrite bind_eq; [|rewrite (bind_eq _ _ _ _ _ (ld_next_ok _ _ _ _ _ Nx)); reflexivity]. destruct q as [j|]; cbn [option_map].
    + destruct (next_greater e i j (k, v) W F Ep Eq) as ([kj vj] & Ij & H). cbn [fst] in H. pose proof (cnt_less e k j (kj, vj) Ij H) as Lc. cbn [fst] in Lc.
      destruct (IH (cnt e kj) ltac:(lia) j kj vj fuel (seen ++ [(k, v)]) Ij eq_refl ltac:(lia)) as (D & L & E & ID & Sf & S & (r & Er) & _).
      exists ((i, (k, v)) :: D), L. split; [etransitivity; [exact E|]; cbn [app map snd]; now rewrite <- app_assoc|]. split; [intros x [<-|Ix]; auto|]. split; auto. split; [|split; [now exists (D ++ L)|intros Ic; contradiction]].
      change (ksorted lt ((k, v) :: map snd (D ++ L))). rewrite Er in S |- *. constructor; [exact S|]. cbn in S |- *. inversion S as [|? ? _ Fr]; subst. constructor; auto. eapply Forall_imp; [|exact Fr]. intros y Hy. cbn in Hy |- *. eapply sw_trans; eauto.
    + exists [(i, (k, v))], []. destruct fuel as [|fuel]; [lia|]. cbn. split; auto. split; [intros x [<-|[]]; auto|]. split; [exists (e_live e); now rewrite app_nil_r|]. split; [repeat constructor|]. split; [eauto|intros Ic; contradiction].
Qed.
(** An iterator whose element and end element are both stored. *)
Lemma range_walk f fr hd ps e h l i klo vlo en hi : XR lt f fr hd ps e (h, l) -> In (i, (klo, vlo)) (e_live e) ->
  match en, hi with Some j, Some khi => (exists v, In (j, (khi, v)) (e_live e)) /\ lt khi klo = false | None, None => True | _, _ => False end ->
  walk (ret (Some (f i), option_map f en)) (h, l) =
    (Ok (filter (fun p => negb (lt (fst p) klo) && match hi with Some khi => lt (fst p) khi | None => true end) (map snd (e_live e))), (h, l)).
Proof using SW.
  intros X I H. destruct (XR_wf _ _ _ _ _ _ X) as [S ND]. apply in_split in I as (A & R & El).
  assert (Fu : (length (all e) < Datatypes.S (length h))%nat) by (pose proof (made_heap _ _ _ _ _ _ _ X); lia).
  assert (SA : Forall (fun x => lt (key x) klo = true) A /\ Forall (fun x => lt klo (key x) = true) R /\ ksorted lt (map snd R)).
  { rewrite El, map_app in S. apply SS_app_inv in S as (_ & S & FA). cbn in S. inversion S as [|? ? S2 FR]; subst. rewrite Forall_map in FR. split; [|auto]. rewrite Forall_map in FA. eapply Forall_imp; [|exact FA]. intros x Hx. now inversion Hx. }
  destruct SA as (FA & FR & SR).
  assert (Flo : forall P, filter (fun p => negb (lt (fst p) klo) && P p) (map snd A) = []). { intros P. apply filter_none. rewrite Forall_map. eapply Forall_imp; [|exact FA]. intros x Hx. cbn. unfold key in Hx. now rewrite Hx. }
  assert (FR' : Forall (fun x => lt (key x) klo = false) R) by (eapply Forall_imp; [|exact FR]; intros x Hx; now apply (lt_asym lt SW)).
  unfold walk. rewrite bind_fuel. cbn [bind ret]. rewrite El, map_app, filter_app, Flo. cbn [app map snd].
  destruct en as [j|], hi as [khi|]; try contradiction.
  - destruct H as [(vj & Ij) Hlo]. rewrite El in Ij. apply in_app_iff in Ij as [Ij|Ij].
    { exfalso. rewrite Forall_forall in FA. specialize (FA _ Ij). unfold key in FA. cbn in FA. congruence. }
    destruct Ij as [Ej|Ij].
    + injection Ej as <- <- <-. unfold bind, ret. cbn [iter_loop]. unfold IsNotEnd. cbn [fst snd option_map peqb]. rewrite Nat.eqb_refl. cbn [negb]. unfold ret. rewrite filter_none; auto.
      constructor; [cbn; now rewrite (sw_irrefl lt SW)|]. rewrite Forall_map. apply Forall_forall. intros x Ix. rewrite Forall_forall in FR'. specialize (FR' x Ix). unfold key in FR'. cbn. now rewrite FR'.
    + apply in_split in Ij as (B & E & ER). subst R. 
      unfold bind, ret. etransitivity; [apply (live_walk f fr hd ps e h l A (klo, vlo) B ((j, (khi, vj)) :: E) i (Datatypes.S (length h)) [] X El)|].
      { unfold all in Fu. rewrite El in Fu. rewrite !app_length in Fu. cbn [length] in *. rewrite app_length in Fu. cbn [length] in Fu. lia. }
      cbn [app map snd]. f_equal. f_equal. rewrite map_app in SR |- *. apply SS_app_inv in SR as (_ & SE & FB). cbn in SE. inversion SE as [|? ? _ FE]; subst.
      rewrite Forall_app in FR, FR'. destruct FR as [FB1 FE1], FR' as [FB2 FE2]. inversion FE1 as [|? ? Hj _]; subst. unfold key in Hj. cbn in Hj.
      cbn [filter fst]. rewrite (sw_irrefl lt SW), Hj. cbn [negb andb]. f_equal. rewrite filter_app, filter_all, filter_none; [now rewrite app_nil_r| |].
      * constructor; [cbn; now rewrite (sw_irrefl lt SW), andb_false_r|]. eapply Forall_imp; [|exact FE]. intros p Hp. cbn in Hp |- *. now rewrite (lt_asym lt SW _ _ Hp), andb_false_r.
      * rewrite Forall_map. rewrite Forall_map in FB. rewrite Forall_forall in *. intros x Ix. specialize (FB x Ix). specialize (FB2 x Ix). unfold key in FB2. inversion FB; subst. cbn in *. now rewrite FB2.
  - unfold bind, ret. etransitivity; [apply (live_walk f fr hd ps e h l A (klo, vlo) R [] i (Datatypes.S (length h)) [] X)|].
    + now rewrite app_nil_r.
    + unfold all in Fu. rewrite El in Fu. rewrite !app_length in Fu. cbn [length] in *. lia.
    + cbn [app map snd filter fst]. rewrite (sw_irrefl lt SW). cbn [negb andb]. rewrite filter_all; auto. rewrite Forall_map. eapply Forall_imp; [|exact FR']. intros x Hx. unfold key in Hx. cbn. now rewrite Hx.
Qed.
End Stale.
