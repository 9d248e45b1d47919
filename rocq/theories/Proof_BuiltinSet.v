(** Proofs about the hash sets of builtin_set.go. *)
From Verif Require Import BaseLemmas Spec Trace Spec_List Spec_BSet Model_BuiltinSet.
Set Default Proof Using "Type".
Local Arguments zlen : simpl never.

Lemma filter_filter_andb {A} (f g : A -> bool) l : filter f (filter g l) = filter (fun x => g x && f x) l.
Proof. induction l as [|a l IH]; cbn; auto. destruct (g a); cbn; rewrite IH; auto. Qed.
Lemma NoDup_app_single {A} (l : list A) x : NoDup l -> ~ In x l -> NoDup (l ++ [x]).
Proof. intros N I. apply (Permutation_NoDup (l := x :: l)); [apply Permutation_cons_append|now constructor]. Qed.
Section S.
Context {K : Type}.
Variables (eqb : K -> K -> bool) (pick : K -> K -> K).
Hypothesis KE : key_eq eqb.
Hypothesis PK : picks_one pick.
Notation gomap := (gomap K).
Notation heap := (list gomap).
Notation g_has := (g_has eqb).
Notation g_set := (g_set eqb pick).
Notation g_del := (g_del eqb).

Lemma eq_sym_b a b : eqb a b = eqb b a.
Proof using KE. apply eq_true_iff_eq. split; apply (ke_sym _ KE). Qed.
Lemma eq_cong a b x : eqb a b = true -> eqb a x = eqb b x.
Proof using KE. intros E. apply eq_true_iff_eq. split; intros H; [|eapply (ke_trans _ KE); eauto]. eapply (ke_trans _ KE); [|exact H]. now apply (ke_sym _ KE). Qed.
Lemma eq_cong_r a b x : eqb a b = true -> eqb x a = eqb x b.
Proof using KE. intros E. rewrite !(eq_sym_b x). now apply eq_cong. Qed.
Lemma pick_eq a b x : eqb a b = true -> eqb (pick a b) x = eqb a x.
Proof using KE PK. intros E. destruct (PK a b) as [->| ->]; auto. symmetry. now apply eq_cong. Qed.

(** *** Well-formed entry lists *)
Definition wfl (l : list (nat * K)) : Prop := NoDup (map fst l) /\ forall e e', In e l -> In e' l -> eqb (snd e) (snd e') = true -> fst e = fst e'.
Definition wf (m : gomap) : Prop := wfl (g_ents m) /\ Forall (fun e => (fst e < g_next m)%nat) (g_ents m).
Lemma wf_empty : wf g_empty.
Proof. split; [split; [constructor|intros e e' []]|constructor]. Qed.
Lemma has_in k m : g_has k m = true <-> exists e, In e (g_ents m) /\ eqb (snd e) k = true.
Proof. unfold Model_BuiltinSet.g_has. apply existsb_exists. Qed.
Lemma has_cong a b m : eqb a b = true -> g_has a m = g_has b m.
Proof using KE. intros E. apply eq_true_iff_eq. rewrite !has_in. split; intros (e & I & H); exists e; split; auto; [rewrite <- H|rewrite <- H]; [symmetry|]; now apply eq_cong_r. Qed.
Lemma wfl_perm l l' : Permutation l l' -> wfl l -> wfl l'.
Proof. intros P [ND A]. split; [eapply Permutation_NoDup; [apply Permutation_map; exact P|auto]|]. intros e e' I I'. apply A; eapply Permutation_in; try (apply Permutation_sym; exact P); auto. Qed.
Lemma wfl_filter f l : wfl l -> wfl (filter f l).
Proof.
  intros [ND A]. split.
  - clear A. induction l as [|e l IH]; cbn in *; auto. apply NoDup_cons_iff in ND as [N ND]. destruct (f e); auto. cbn. constructor; auto. intros I. apply N. apply in_map_iff in I as (x & <- & I). apply filter_In in I as [I _]. now apply in_map.
  - intros e e' I I'. apply filter_In in I as [I _]. apply filter_In in I' as [I' _]. now apply A.
Qed.
Lemma wf_set k m : wf m -> wf (g_set k m).
Proof using KE PK.
  intros [[ND A] F]. unfold Model_BuiltinSet.g_set. destruct (g_has k m) eqn:H.
  - set (f := fun e : nat * K => if eqb (snd e) k then (fst e, pick (snd e) k) else e).
    assert (E1 : forall e, fst (f e) = fst e) by (intros e; unfold f; now destruct (eqb (snd e) k)).
    assert (E2 : forall e x, eqb (snd (f e)) x = eqb (snd e) x) by (intros e x; unfold f; destruct (eqb (snd e) k) eqn:E; auto; cbn; now apply pick_eq).
    split; [split|]; cbn [g_ents g_next].
    + rewrite map_map. erewrite map_ext; [exact ND|auto].
    + intros e e' I I'. apply in_map_iff in I as (x & <- & I). apply in_map_iff in I' as (y & <- & I'). rewrite !E1. rewrite E2, (eq_sym_b (snd x)), E2, eq_sym_b. auto.
    + apply Forall_forall. intros e I. apply in_map_iff in I as (x & <- & I). rewrite E1. rewrite Forall_forall in F. auto.
  - rewrite Forall_forall in F. split; [split|]; cbn [g_ents g_next].
    + rewrite map_app. cbn. apply NoDup_app_single; auto. intros I. apply in_map_iff in I as (x & E & I). apply F in I. lia.
    + assert (N : forall e, In e (g_ents m) -> eqb (snd e) k = false). { intros e I. apply not_true_iff_false. intros E. rewrite <- not_true_iff_false in H. apply H. apply has_in. eauto. }
      intros e e' I I' E. apply in_app_iff in I as [I|[<-|[]]]; apply in_app_iff in I' as [I'|[<-|[]]]; auto; cbn in *; exfalso.
      * rewrite (N e I) in E. discriminate.
      * rewrite eq_sym_b, (N e' I') in E. discriminate.
    + apply Forall_forall. intros e I. apply in_app_iff in I as [I|[<-|[]]]; cbn; [apply F in I|]; lia.
Qed.
Lemma has_set k m x : g_has x (g_set k m) = g_has x m || eqb k x.
Proof using KE PK.
  unfold Model_BuiltinSet.g_set. destruct (g_has k m) eqn:H.
  - transitivity (g_has x m); [|destruct (eqb k x) eqn:E; [rewrite <- (has_cong _ _ m E), H; reflexivity|now rewrite orb_false_r]].
    unfold Model_BuiltinSet.g_has. cbn [g_ents]. induction (g_ents m) as [|e l IH]; cbn; auto. rewrite IH. f_equal. destruct (eqb (snd e) k) eqn:E; auto. cbn. now apply pick_eq.
  - unfold Model_BuiltinSet.g_has. cbn [g_ents]. rewrite existsb_app. cbn. now rewrite orb_false_r.
Qed.
Lemma len_set k m : zlen (g_ents (g_set k m)) = zlen (g_ents m) + if g_has k m then 0 else 1.
Proof. unfold Model_BuiltinSet.g_set, zlen. destruct (g_has k m); cbn [g_ents]; [rewrite map_length|rewrite app_length; cbn [length]]; lia. Qed.
Lemma wf_del k m : wf m -> wf (g_del k m).
Proof. intros [W F]. split; cbn [g_ents g_del g_next]; [now apply wfl_filter|]. apply Forall_forall. intros e I. apply filter_In in I as [I _]. rewrite Forall_forall in F. auto. Qed.
Lemma has_del k m x : g_has x (g_del k m) = g_has x m && negb (eqb k x).
Proof using KE.
  apply eq_true_iff_eq. rewrite andb_true_iff, negb_true_iff, !has_in. cbn [g_ents Model_BuiltinSet.g_del]. split.
  - intros (e & I & E). apply filter_In in I as [I N]. split; eauto. apply negb_true_iff in N. rewrite <- N. rewrite (eq_sym_b k). symmetry. now apply eq_cong.
  - intros [(e & I & E) N]. exists e. split; auto. apply filter_In. split; auto. apply negb_true_iff. rewrite <- N, (eq_sym_b k). now apply eq_cong.
Qed.
Lemma filter_all {A} (f : A -> bool) l : (forall x, In x l -> f x = true) -> filter f l = l.
Proof. induction l as [|a l IH]; intros H; cbn; auto. rewrite (H a (or_introl eq_refl)), IH; auto. intros x I. apply H. now right. Qed.
Lemma len_del k m : wf m -> zlen (g_ents (g_del k m)) = zlen (g_ents m) - if g_has k m then 1 else 0.
Proof using KE.
  intros [[ND A] _]. unfold Model_BuiltinSet.g_has. cbn [g_ents Model_BuiltinSet.g_del]. induction (g_ents m) as [|e l IH]; [reflexivity|]. cbn [filter existsb]. destruct (eqb (snd e) k) eqn:E; cbn [negb orb].
  - rewrite filter_all; [unfold zlen; cbn [length]; lia|]. intros x I. apply negb_true_iff, not_true_iff_false. intros Ex. apply NoDup_cons_iff in ND as [N _]. apply N.
    rewrite (A e x); [now apply in_map|now left|now right|]. rewrite (eq_cong_r (snd x) k); auto.
  - cbn in ND. apply NoDup_cons_iff in ND as [_ ND]. unfold zlen in *. cbn [length]. cut (Z.of_nat (length (filter (fun e0 => negb (eqb (snd e0) k)) l)) = Z.of_nat (length l) - (if existsb (fun e0 => eqb (snd e0) k) l then 1 else 0)); [lia|].
    apply IH; auto. intros x y I I'. apply A; now right.
Qed.

(** *** Heaps *)
Lemma look_put_same (h : heap) s m : allocated h s = true -> look (put s m h) s = m.
Proof. destruct s as [a|]; cbn; [|discriminate]. intros L. apply Nat.ltb_lt in L. now apply nth_upd_eq. Qed.
Lemma look_put_other (h : heap) s m t : s <> t -> look (put s m h) t = look h t.
Proof. destruct s as [a|], t as [b|]; cbn; auto. intros N. apply nth_upd_ne. congruence. Qed.
Lemma put_put (h : heap) s m m' : put s m (put s m' h) = put s m h.
Proof. destruct s; cbn; auto. apply upd_upd. Qed.
Lemma put_look (h : heap) s : put s (look h s) h = h.
Proof. destruct s as [a|]; cbn; auto. destruct (Nat.lt_ge_cases a (length h)) as [L|L]; [|now apply upd_ge]. apply upd_self. now apply nth_error_nth'. Qed.
Lemma put_length (h : heap) s m : length (put s m h) = length h.
Proof. destruct s; cbn; auto. apply upd_length. Qed.
Lemma alloc_put (h : heap) s m t : allocated (put s m h) t = allocated h t.
Proof. destruct t; cbn; auto. now rewrite put_length. Qed.
Lemma look_dead (h : heap) s : allocated h s = false -> look h s = g_empty.
Proof. destruct s as [a|]; cbn; auto. intros L. apply Nat.ltb_ge in L. now apply nth_overflow. Qed.
Lemma put_dead (h : heap) s m : allocated h s = false -> put s m h = h.
Proof. destruct s as [a|]; cbn; auto. intros L. apply Nat.ltb_ge in L. now apply upd_ge. Qed.

(** *** Range loops that leave the map alone *)
Definition visit (os : list nat) (m : gomap) : list (nat * K) := flat_map (fun i => match g_find i m with Some e => [e] | None => [] end) os.
Fixpoint for_keys {A} (body : A -> K -> M heap (bool * A)) (ks : list K) (a : A) : M heap A :=
  match ks with [] => ret a | k :: r => x <- body a k ;; if fst x then for_keys body r (snd x) else ret (snd x) end.
Lemma range_for {A} s (body : A -> K -> M heap (bool * A)) : (forall a k h, look (snd (body a k h)) s = look h s) ->
  forall os a h, range_loop s body os a h = for_keys body (map snd (visit os (look h s))) a h.
Proof.
  intros H. induction os as [|i os IH]; intros a h; cbn [range_loop visit flat_map map for_keys]; auto. unfold visit in *. destruct (g_find i (look h s)) as [[j k]|]; cbn [app map for_keys]; [|apply IH].
  unfold bind. cbn [snd]. specialize (H a k h). destruct (body a k h) as [[[[] a']| |] h']; auto. cbn [fst snd] in *. rewrite IH, H. reflexivity.
Qed.
Lemma find_some_in i (m : gomap) e : g_find i m = Some e -> In e (g_ents m) /\ fst e = i.
Proof. intros E. apply find_some in E as [I E]. apply Nat.eqb_eq in E. auto. Qed.
Lemma find_in (m : gomap) (e : nat * K) : wf m -> In e (g_ents m) -> g_find (fst e) m = Some e.
Proof.
  intros [[ND _] _]. unfold g_find. induction (g_ents m) as [|x l IH]; intros I; [destruct I|]. cbn in *. apply NoDup_cons_iff in ND as [N ND]. destruct I as [->|I]; [now rewrite Nat.eqb_refl|].
  destruct (Nat.eqb_spec (fst x) (fst e)) as [E|E]; auto. exfalso. apply N. rewrite E. now apply in_map.
Qed.
Lemma rounds_nodup o (m : gomap) : NoDup (rounds o m).
Proof. unfold rounds. apply NoDup_rev, NoDup_nodup. Qed.
Lemma rounds_all o (m : gomap) e : In e (g_ents m) -> In (fst e) (rounds o m).
Proof. intros I. unfold rounds. rewrite <- in_rev, nodup_In, <- in_rev. apply in_app_iff. right. now apply in_map. Qed.
Lemma NoDup_map_inv' {A B} (f : A -> B) l : NoDup (map f l) -> NoDup l.
Proof. apply NoDup_map_inv. Qed.
Lemma visit_perm o m : wf m -> Permutation (visit (rounds o m) m) (g_ents m).
Proof.
  intros W. apply NoDup_Permutation.
  - pose proof (rounds_nodup o m) as ND. apply NoDup_map_inv with (f := fst).
    induction (rounds o m) as [|i os IH]; [constructor|]. apply NoDup_cons_iff in ND as [N ND]. unfold visit in *. cbn [flat_map]. destruct (g_find i m) as [e|] eqn:E; cbn [app map]; auto. constructor; auto.
    intros I. apply N. apply in_map_iff in I as (x & Ex & I). apply in_flat_map in I as (j & Ij & I). destruct (g_find j m) as [y|] eqn:Ey; [|destruct I]. destruct I as [->|[]].
    apply find_some_in in E as [_ E], Ey as [_ Ey]. congruence.
  - destruct W as [[ND _] _]. now apply NoDup_map_inv in ND.
  - intros e. unfold visit. rewrite in_flat_map. split.
    + intros (i & _ & I). destruct (g_find i m) as [x|] eqn:E; [|destruct I]. destruct I as [<-|[]]. now apply find_some_in in E.
    + intros I. exists (fst e). split; [now apply rounds_all|]. rewrite (find_in m e W I). now left.
Qed.
Lemma visit_wfl o m : wf m -> wfl (visit (rounds o m) m).
Proof. intros W. apply (wfl_perm (g_ents m)); [now apply Permutation_sym, visit_perm|apply W]. Qed.
Lemma visit_in o m e : wf m -> In e (visit (rounds o m) m) <-> In e (g_ents m).
Proof. intros W. split; apply Permutation_in; [|apply Permutation_sym]; now apply visit_perm. Qed.
Lemma has_all_ents l : wfl l -> has_all eqb (map snd l) (fun x => existsb (fun e => eqb (snd e) x) l).
Proof.
  intros [ND A]. split.
  - intros i j a b NE Hi Hj. rewrite nth_error_map in Hi, Hj. destruct (nth_error l i) as [e|] eqn:Ei; [|discriminate]. destruct (nth_error l j) as [e'|] eqn:Ej; [|discriminate]. injection Hi as <-. injection Hj as <-.
    apply not_true_iff_false. intros E. apply NE. rewrite NoDup_nth_error in ND. apply ND; [rewrite map_length; apply nth_error_Some; congruence|].
    rewrite !nth_error_map, Ei, Ej. cbn. f_equal. apply A; auto; eapply nth_error_In; eauto.
  - intros x. rewrite existsb_exists. split; [intros (e & I & E); exists (snd e); split; auto; now apply in_map|]. intros (y & I & E). apply in_map_iff in I as (e & <- & I). eauto.
Qed.
Lemma visit_has_all o m : wf m -> has_all eqb (map snd (visit (rounds o m) m)) (fun x => g_has x m).
Proof.
  intros W. destruct (has_all_ents _ (visit_wfl o m W)) as [A C]. split; auto. intros x. rewrite <- C. rewrite has_in, existsb_exists. split; intros (e & I & E); exists e; split; auto; now apply (visit_in o m e W).
Qed.
Lemma visit_exists o m f : wf m -> existsb f (map snd (visit (rounds o m) m)) = existsb (fun e => f (snd e)) (g_ents m).
Proof.
  intros W. apply eq_true_iff_eq. rewrite !existsb_exists. split.
  - intros (x & I & E). apply in_map_iff in I as (e & <- & I). apply visit_in in I; eauto.
  - intros (e & I & E). exists (snd e). split; auto. apply in_map. now apply visit_in.
Qed.
Lemma has_all_same l p q : (forall x, p x = q x) -> has_all eqb l p -> has_all eqb l q.
Proof. intros E [A C]. split; auto. intros x. rewrite <- E. apply C. Qed.

(** *** Clear, for any keys *)
Lemma clear_loop s os : forall h, wf (look h s) -> allocated h s = true ->
  range_loop s (do_each (del_key eqb s)) os tt h =
  (Ok tt, put s (mkMap (g_next (look h s)) (filter (fun e => negb (existsb (Nat.eqb (fst e)) os && eqb (snd e) (snd e))) (g_ents (look h s)))) h).
Proof using KE.
  induction os as [|i os IH]; intros h W L; cbn [range_loop].
  - unfold ret. f_equal. rewrite <- (put_look h s) at 1. f_equal. destruct (look h s) as [n es]. cbn. f_equal. symmetry. now apply filter_all.
  - destruct (g_find i (look h s)) as [[j k]|] eqn:E.
    + apply find_some_in in E as [I E]. cbn in E. subst j. unfold do_each, del_key, bind, ret. cbn [fst snd].
      assert (L' : allocated (put s (g_del k (look h s)) h) s = true) by now rewrite alloc_put.
      rewrite IH; rewrite ?look_put_same by auto; [|now apply wf_del|auto]. rewrite put_put. do 2 f_equal. cbn [g_next g_ents Model_BuiltinSet.g_del]. f_equal.
      destruct W as [[ND A] _]. rewrite filter_filter_andb. apply filter_ext_in. intros e Ie. cbn [existsb]. rewrite negb_andb.
      destruct (Nat.eqb_spec (fst e) i) as [Ei|Ei].
      * assert (e = (i, k)) as ->. { assert (Hf : forall l, NoDup (map fst l) -> In e l -> In (i, k) l -> e = (i, k)); [|now apply (Hf (g_ents (look h s)))].
          clear - Ei. induction l as [|x l IH]; intros ND I1 I2; [destruct I1|]. cbn in ND. apply NoDup_cons_iff in ND as [N ND]. destruct I1 as [->|I1], I2 as [E2|I2]; auto; exfalso; apply N.
          - rewrite Ei. change i with (fst (i, k)). now apply in_map.
          - rewrite E2. cbn. rewrite <- Ei. now apply in_map. }
        cbn. destruct (eqb k k); cbn; auto. now rewrite orb_true_r.
      * assert (eqb (snd e) k = false) as ->. { apply not_true_iff_false. intros X. apply Ei. exact (A e (i, k) Ie I X). } cbn. rewrite negb_andb. reflexivity.
    + rewrite IH; auto. do 3 f_equal. apply filter_ext_in. intros e Ie. cbn [existsb]. destruct (Nat.eqb_spec (fst e) i) as [Ei|Ei]; auto.
      exfalso. subst i. rewrite (find_in _ e W Ie) in E. discriminate.
Qed.
End S.

Section R.
Context {K : Type}.
Variables (eqb : K -> K -> bool) (pick : K -> K -> K).
Hypothesis KE : key_eq eqb.
Hypothesis RF : key_refl eqb.
Hypothesis PK : picks_one pick.
Notation gomap := (gomap K).
Notation heap := (list gomap).
Notation g_has := (g_has eqb).
Notation g_set := (g_set eqb pick).
Notation g_del := (g_del eqb).
Notation wf := (wf eqb).

Definition mrel (p : K -> bool) (m : gomap) : Prop := wf m /\ forall x, p x = g_has x m.
Definition wrel (w : @world K) (h : heap) : Prop := Forall2 mrel w h.
Lemma mrel_empty : mrel none g_empty.
Proof. split; [apply wf_empty|reflexivity]. Qed.
Lemma wrel_len w h : wrel w h -> length w = length h.
Proof. intros R. induction R; cbn; auto. Qed.
Lemma wrel_sem w h s : wrel w h -> mrel (sem w s) (look h s).
Proof.
  intros R. destruct s as [i|]; cbn; [|apply mrel_empty]. revert i. induction R as [|p m w h H R IH]; intros [|i]; cbn; auto; apply mrel_empty.
Qed.
Lemma wrel_nil w h s : wrel w h -> is_nil_set w s = negb (allocated h s).
Proof. intros R. destruct s; cbn; auto. now rewrite (wrel_len _ _ R). Qed.
Lemma wrel_change w h s p m : wrel w h -> mrel p m -> wrel (change s p w) (put s m h).
Proof.
  intros R H. destruct s as [i|]; cbn; auto. revert i. induction R as [|q n w h H' R IH]; intros [|i]; cbn; constructor; auto. apply IH.
Qed.
Lemma wrel_snoc w h p m : wrel w h -> mrel p m -> wrel (w ++ [p]) (h ++ [m]).
Proof. intros R H. apply Forall2_app; auto. Qed.
Lemma mrel_set p m k : mrel p m -> mrel (fun x => p x || eqb x k) (g_set k m).
Proof using KE PK. intros [W H]. split; [now apply wf_set|]. intros x. rewrite has_set, H; auto. now rewrite (eq_sym_b eqb KE k). Qed.
Lemma mrel_del p m k : mrel p m -> mrel (fun x => p x && negb (eqb x k)) (g_del k m).
Proof using KE. intros [W H]. split; [now apply wf_del|]. intros x. rewrite has_del, H; auto. now rewrite (eq_sym_b eqb KE k). Qed.
Lemma mrel_ext p q m : (forall x, q x = p x) -> mrel p m -> mrel q m.
Proof. intros E [W H]. split; auto. intros x. now rewrite E. Qed.
Definition setl (ks : list K) (m : gomap) : gomap := fold_left (fun m k => g_set k m) ks m.
Definition dell (ks : list K) (m : gomap) : gomap := fold_left (fun m k => g_del k m) ks m.
Lemma mrel_setl ks : forall p m, mrel p m -> mrel (fun x => p x || oneof eqb ks x) (setl ks m).
Proof using KE PK.
  induction ks as [|k ks IH]; intros p m H; cbn [setl fold_left]; [eapply mrel_ext; [|exact H]; intros; apply orb_false_r|].
  eapply mrel_ext; [|apply IH, (mrel_set p m k), H]. intros x. cbn. now rewrite orb_assoc.
Qed.
Lemma mrel_dell ks : forall p m, mrel p m -> mrel (fun x => p x && negb (oneof eqb ks x)) (dell ks m).
Proof using KE.
  induction ks as [|k ks IH]; intros p m H; cbn [dell fold_left]; [eapply mrel_ext; [|exact H]; intros; apply andb_true_r|].
  eapply mrel_ext; [|apply IH, (mrel_del p m k), H]. intros x. cbn. now rewrite negb_orb, andb_assoc.
Qed.
Lemma set_keys_ok s ks : forall h : heap, allocated h s = true -> set_keys eqb pick s ks h = (Ok tt, put s (setl ks (look h s)) h).
Proof.
  induction ks as [|k ks IH]; intros h L; cbn [set_keys setl fold_left]; [unfold ret; now rewrite put_look|]. unfold bind, set_key at 1. rewrite L.
  rewrite IH by now rewrite alloc_put. now rewrite look_put_same, put_put.
Qed.
Lemma del_keys_ok s ks : forall h : heap, del_keys eqb s ks h = (Ok tt, put s (dell ks (look h s)) h).
Proof.
  induction ks as [|k ks IH]; intros h; cbn [del_keys dell fold_left]; [unfold ret; now rewrite put_look|]. unfold bind, del_key at 1. rewrite IH.
  destruct (allocated h s) eqn:L; [now rewrite look_put_same, put_put|]. now rewrite !put_dead by (rewrite ?put_dead; auto).
Qed.

(** *** Counting *)
Definition pickq (q : K -> bool) : list K -> list K :=
  fix go ks := match ks with [] => [] | k :: r => if q k && negb (oneof eqb r k) then k :: go r else go r end.
Lemma pickq_in q ks k : In k (pickq q ks) -> In k ks /\ q k = true.
Proof. induction ks as [|a ks IH]; cbn; auto. destruct (q a && _) eqn:E; cbn; [intros [->|I]|intros I]; try (apply IH in I as [I Q]; auto). apply andb_true_iff in E as [E _]. auto. Qed.
Lemma oneof_in ks x : oneof eqb ks x = true <-> exists y, In y ks /\ eqb y x = true.
Proof using KE. unfold oneof. rewrite existsb_exists. split; intros (y & I & E); exists y; split; auto; now apply (ke_sym _ KE). Qed.
Lemma oneof_cong ks a b : eqb a b = true -> oneof eqb ks a = oneof eqb ks b.
Proof using KE. intros E. unfold oneof. induction ks as [|k ks IH]; cbn; auto. rewrite IH. f_equal. now apply eq_cong. Qed.
Lemma pickq_all q ks : (forall a b, eqb a b = true -> q a = q b) -> has_all eqb (pickq q ks) (fun x => oneof eqb ks x && q x).
Proof using KE RF.
  intros C. split.
  - induction ks as [|k ks IH]; intros i j a b NE Hi Hj; [destruct i; discriminate|]. cbn in Hi, Hj. destruct (q k && negb (oneof eqb ks k)) eqn:E; [|eapply IH; eauto].
    apply andb_true_iff in E as [_ E]. apply negb_true_iff in E.
    assert (N : forall n x, nth_error (pickq q ks) n = Some x -> eqb k x = false).
    { intros n x Hn. apply not_true_iff_false. intros X. rewrite <- not_true_iff_false in E. apply E. apply nth_error_In, pickq_in in Hn as [I _]. apply oneof_in. exists x. split; auto. now apply (ke_sym _ KE). }
    destruct i as [|i], j as [|j]; cbn in Hi, Hj; [congruence|injection Hi as <-; eauto|injection Hj as <-; rewrite eq_sym_b; eauto|eapply (IH i j); eauto].
  - intros x. rewrite andb_true_iff. induction ks as [|k ks IH]; cbn [pickq]; [cbn; split; [intros [X _]; discriminate|intros (y & [] & _)]|]. cbn [oneof existsb]. fold (oneof eqb ks x). rewrite orb_true_iff.
    destruct (q k) eqn:Q; cbn [andb].
    + destruct (oneof eqb ks k) eqn:E; cbn [negb].
      * rewrite <- IH. split; intros [H H']; split; auto. destruct H as [H|H]; auto. rewrite (oneof_cong ks x k); auto.
      * split.
        -- intros [[H|H] H']; [exists k; split; [now left|now apply (ke_sym _ KE)]|]. destruct IH as [IH _]. destruct IH as (y & I & X); auto. exists y. split; auto. now right.
        -- intros (y & [<-|I] & X); [split; [left; now apply (ke_sym _ KE)|now rewrite <- (C _ _ X)]|]. destruct IH as [_ IH]. destruct IH as [H1 H2]; eauto.
    + rewrite <- IH. split; intros [H H']; split; auto. destruct H as [H|H]; auto. exfalso. rewrite (C _ _ H) in H'. congruence.
Qed.
Lemma pickq_ext q q' ks : (forall x, q x = q' x) -> pickq q ks = pickq q' ks.
Proof. intros E. induction ks as [|k ks IH]; cbn; auto. now rewrite E, IH. Qed.
(** Excluding one key from the count. *)
Lemma pickq_minus q k ks : (forall a b, eqb a b = true -> q a = q b) ->
  zlen (pickq (fun x => q x && negb (eqb k x)) ks) = zlen (pickq q ks) - if q k && oneof eqb ks k then 1 else 0.
Proof using KE RF.
  intros C. induction ks as [|a ks IH]; [cbn; now rewrite andb_false_r|]. cbn [pickq oneof existsb]. fold (oneof eqb ks k). destruct (eqb k a) eqn:E; cbn [negb orb].
  - rewrite andb_false_r. cbn [andb]. rewrite IH, (C k a E), (oneof_cong ks k a E). destruct (q a), (oneof eqb ks a); cbn [andb negb orb]; unfold zlen; cbn [length]; lia.
  - rewrite andb_true_r. destruct (q a && negb (oneof eqb ks a)); unfold zlen in *; cbn [length]; lia.
Qed.
Lemma len_setl ks : forall m, zlen (g_ents (setl ks m)) = zlen (g_ents m) + zlen (pickq (fun x => negb (g_has x m)) ks).
Proof using KE RF PK.
  induction ks as [|k ks IH]; intros m; cbn [setl fold_left]; [unfold zlen; cbn; lia|]. fold (setl ks (g_set k m)). rewrite IH, len_set.
  rewrite (pickq_ext _ (fun x => negb (g_has x m) && negb (eqb k x))) by (intros x; rewrite has_set by auto; apply negb_orb).
  rewrite pickq_minus by (intros a b E; f_equal; now apply has_cong). cbn [pickq]. destruct (g_has k m), (oneof eqb ks k); cbn [andb negb]; unfold zlen; cbn [length]; lia.
Qed.
Lemma len_dell ks : forall m, wf m -> zlen (g_ents (dell ks m)) = zlen (g_ents m) - zlen (pickq (fun x => g_has x m) ks).
Proof using KE RF.
  induction ks as [|k ks IH]; intros m W; cbn [dell fold_left]; [unfold zlen; cbn; lia|]. fold (dell ks (g_del k m)). rewrite IH, len_del by auto using wf_del.
  rewrite (pickq_ext _ (fun x => g_has x m && negb (eqb k x))) by (intros x; now rewrite has_del by auto).
  rewrite pickq_minus by (intros a b E; now apply has_cong). cbn [pickq]. destruct (g_has k m), (oneof eqb ks k); cbn [andb negb]; unfold zlen; cbn [length]; lia.
Qed.
Lemma size_wf p m : mrel p m -> size eqb p (zlen (g_ents m)).
Proof. intros [[W _] H]. exists (map snd (g_ents m)). split; [|unfold zlen; now rewrite map_length]. eapply has_all_same; [|apply has_all_ents; exact W]. intros x. now rewrite H. Qed.
Lemma apart_le ks : forall ks', (forall i j a b, i <> j -> nth_error ks i = Some a -> nth_error ks j = Some b -> eqb a b = false) ->
  (forall k, In k ks -> exists k', In k' ks' /\ eqb k k' = true) -> (length ks <= length ks')%nat.
Proof using KE.
  induction ks as [|k ks IH]; intros ks' A H; cbn; [lia|]. destruct (H k (or_introl eq_refl)) as (k' & I & E). destruct (in_split _ _ I) as (X & Y & ->).
  specialize (IH (X ++ Y)). rewrite app_length in *. cbn in *. cut (length ks <= length X + length Y)%nat; [lia|]. apply IH.
  - intros i j a b NE Hi Hj. apply (A (Datatypes.S i) (Datatypes.S j)); auto.
  - intros x Ix. destruct (H x (or_intror Ix)) as (x' & Ix' & Ex). exists x'. split; auto. apply in_app_iff in Ix' as [Ix'|[<-|Ix']]; try (apply in_app_iff; auto; fail). exfalso.
    apply In_nth_error in Ix as [n Hn]. assert (F : eqb k x = false) by (apply (A 0%nat (Datatypes.S n)); auto). rewrite (ke_trans _ KE _ _ _ E (ke_sym _ KE _ _ Ex)) in F. discriminate.
Qed.
Lemma size_le p q n n' : (forall x, p x = true -> q x = true) -> size eqb p n -> size eqb q n' -> n <= n'.
Proof using KE RF.
  intros S (l & [A C] & ->) (l' & [A' C'] & ->). unfold zlen. apply inj_le, apart_le; auto. intros k I. destruct (proj1 (C' k)) as (y & Iy & E); [apply S, C; exists k; split; auto|]. exists y. split; auto. now apply (ke_sym _ KE).
Qed.
Lemma size_unique p n n' : size eqb p n -> size eqb p n' -> n = n'.
Proof using KE RF. intros H H'. apply Z.le_antisymm; eapply size_le; eauto. Qed.

(** *** The loops *)
Lemma for_update r ks : forall h : heap, allocated h r = true -> for_keys (do_each (set_key eqb pick r)) ks tt h = (Ok tt, put r (setl ks (look h r)) h).
Proof.
  induction ks as [|k ks IH]; intros h L; cbn [for_keys setl fold_left]; [unfold ret; now rewrite put_look|]. unfold do_each at 1, set_key at 1, bind, ret. rewrite L. cbn [fst snd].
  rewrite IH by now rewrite alloc_put. now rewrite look_put_same, put_put.
Qed.
Lemma set_key_look (h : heap) r k s : r <> s -> look (snd (do_each (set_key eqb pick r) tt k h)) s = look h s.
Proof. intros N. unfold do_each, set_key, bind, ret. destruct (allocated h r); cbn [snd]; auto. now apply look_put_other. Qed.
Lemma update_other r s o (h : heap) : r <> s -> allocated h r = true ->
  b_Update eqb pick r s o h = (Ok tt, put r (setl (map snd (visit (rounds o (look h s)) (look h s))) (look h r)) h).
Proof. intros N L. unfold b_Update, range. rewrite range_for; [|intros [] k h'; now apply set_key_look]. now apply for_update. Qed.
Lemma update_self s (h0 : heap) : allocated h0 s = true -> forall os m, wf m -> (forall x, g_has x m = g_has x (look h0 s)) ->
  exists m', range_loop s (do_each (set_key eqb pick s)) os tt (put s m h0) = (Ok tt, put s m' h0) /\ wf m' /\ forall x, g_has x m' = g_has x (look h0 s).
Proof using KE RF PK.
  intros L. induction os as [|i os IH]; intros m W H; cbn [range_loop]; [exists m; auto|]. rewrite look_put_same by auto. destruct (g_find i m) as [[j k]|] eqn:E; [|auto].
  apply find_some_in in E as [I _]. unfold do_each at 1, set_key at 1, bind, ret. rewrite alloc_put, L. cbn [fst snd]. rewrite look_put_same, put_put by auto. apply IH; [now apply wf_set|].
  intros x. rewrite has_set, <- H by auto. destruct (eqb k x) eqn:Ex; [|apply orb_false_r]. rewrite orb_true_r. symmetry. apply has_in. now exists (j, k).
Qed.
Lemma update_dead_loop r s (h : heap) : allocated h r = false -> forall os, range_loop s (do_each (set_key eqb pick r)) os tt h = (match visit os (look h s) with [] => Ok tt | _ => Panic end, h).
Proof.
  intros L. induction os as [|i os IH]; cbn [range_loop]; auto. unfold visit in *. cbn [flat_map]. destruct (g_find i (look h s)) as [[j k]|]; cbn [app]; auto. unfold do_each, set_key, bind. now rewrite L.
Qed.
Lemma update_dead r s o (h : heap) : wf (look h s) -> allocated h r = false -> b_Update eqb pick r s o h = (if zlen (g_ents (look h s)) =? 0 then Ok tt else Panic, h).
Proof.
  intros W L. unfold b_Update, range. rewrite update_dead_loop by auto. pose proof (Permutation_length (visit_perm eqb o _ W)) as P. unfold zlen. rewrite <- P. now destruct (visit _ _).
Qed.
Lemma for_collect ks : forall acc (h : heap), for_keys (fun keys k => ret (true, keys ++ [k])) ks acc h = (Ok (acc ++ ks), h).
Proof. induction ks as [|k ks IH]; intros acc h; cbn [for_keys]; [now rewrite app_nil_r|]. unfold bind, ret at 1. cbn [fst snd]. now rewrite IH, <- app_assoc. Qed.
Lemma for_fold {St} (cb : St -> K -> St) ks : forall st (h : heap), for_keys (fun st k => ret (true, cb st k)) ks st h = (Ok (fold_left cb ks st), h).
Proof. induction ks as [|k ks IH]; intros st h; cbn [for_keys fold_left]; auto. unfold bind, ret at 1. cbn [fst snd]. apply IH. Qed.
Lemma for_while {St} (cb : St -> K -> bool * St) ks : forall st (h : heap),
  for_keys (fun st k => let '(go, st') := cb st k in if negb go then ret (false, st') else ret (true, st')) ks st h = (Ok (fold_while cb st ks), h).
Proof. induction ks as [|k ks IH]; intros st h; cbn [for_keys fold_while]; auto. unfold bind, ret. destruct (cb st k) as [[] st']; cbn [fst snd negb]; [apply IH|reflexivity]. Qed.
Lemma for_exit t (f : bool -> bool) ks : forall a (h : heap),
  for_keys (fun _ k => ok <- b_Has eqb t k ;; if f ok then ret (false, false) else ret (true, true)) ks a h =
  (Ok (negb (existsb (fun k => f (g_has k (look h t))) ks) && (a || negb (match ks with [] => true | _ => false end))), h).
Proof.
  induction ks as [|k ks IH]; intros a h; cbn [for_keys existsb]; [unfold ret; now rewrite orb_false_r|]. unfold bind, b_Has, has_key, ret in *. destruct (f (g_has k (look h t))); cbn [fst snd orb negb andb]; auto.
  rewrite IH. now rewrite orb_true_r.
Qed.
Lemma insert_ok (h : heap) r k : allocated h r = true -> b_Insert eqb pick r k h = (Ok (negb (g_has k (look h r))), put r (g_set k (look h r)) h).
Proof.
  intros L. unfold b_Insert, bind, len_map, set_key, ret. rewrite L, look_put_same by auto. rewrite len_set. do 2 f_equal. destruct (g_has k (look h r)); cbn; [apply Z.ltb_ge|apply Z.ltb_lt]; lia.
Qed.
Lemma for_insert t r (f : bool -> bool) ks : r <> t -> forall h : heap, allocated h r = true ->
  for_keys (do_each (fun k => ok <- b_Has eqb t k ;; if f ok then b <- b_Insert eqb pick r k ;; ret tt else ret tt)) ks tt h =
  (Ok tt, put r (setl (filter (fun k => f (g_has k (look h t))) ks) (look h r)) h).
Proof.
  intros N. induction ks as [|k ks IH]; intros h L; cbn [for_keys filter setl fold_left]; [unfold ret; now rewrite put_look|]. unfold do_each at 1, bind, b_Has at 1, has_key, ret. destruct (f (g_has k (look h t))); cbn [fst snd].
  - rewrite insert_ok by auto. cbn [fst snd]. rewrite IH by now rewrite alloc_put. now rewrite look_put_same, put_put, look_put_other.
  - now rewrite IH.
Qed.
Lemma has_keys o m x : wf m -> oneof eqb (map snd (visit (rounds o m) m)) x = g_has x m.
Proof using KE. intros W. unfold oneof. rewrite visit_exists with (eqb := eqb); auto. unfold Model_BuiltinSet.g_has. induction (g_ents m) as [|e l IH]; cbn; auto. rewrite IH. f_equal. now apply eq_sym_b. Qed.
Lemma oneof_filter q ks x : (forall a b, eqb a b = true -> q a = q b) -> oneof eqb (filter q ks) x = oneof eqb ks x && q x.
Proof using KE.
  intros C. unfold oneof. induction ks as [|k ks IH]; cbn; auto. destruct (q k) eqn:Q; cbn; rewrite IH; destruct (eqb x k) eqn:E; cbn; auto; rewrite (C _ _ E), Q; auto. apply andb_false_r.
Qed.

(** *** One call *)
Lemma ref_ok_ne w (h : heap) s : wrel w h -> ref_ok (length w) s = true -> Some (length h) <> s.
Proof. intros R H. rewrite (wrel_len _ _ R) in H. destruct s as [i|]; [|discriminate]. cbn in H. apply Nat.ltb_lt in H. intros X. injection X as X. lia. Qed.
Lemma look_snoc (h : heap) m s : s <> Some (length h) -> look (h ++ [m]) s = look h s.
Proof. destruct s as [i|]; cbn; auto. intros N. destruct (Nat.lt_ge_cases i (length h)) as [L|L]; [now apply app_nth1|]. rewrite (nth_overflow h) by auto. rewrite app_nth2 by auto. destruct (i - length h)%nat as [|[|]] eqn:E; auto. exfalso. apply N. f_equal. lia. Qed.
Lemma put_snoc (h : heap) m m' : put (Some (length h)) m' (h ++ [m]) = h ++ [m'].
Proof. cbn. rewrite upd_app_r by auto. now rewrite Nat.sub_diag. Qed.
Lemma alloc_snoc (h : heap) m : allocated (h ++ [m]) (Some (length h)) = true.
Proof. cbn. apply Nat.ltb_lt. rewrite app_length. cbn. lia. Qed.
Lemma look_new (h : heap) m : look (h ++ [m]) (Some (length h)) = m.
Proof. cbn. rewrite app_nth2 by auto. now rewrite Nat.sub_diag. Qed.
Lemma change_len w s (p : K -> bool) : length (change s p w) = length w.
Proof. destruct s; cbn; auto. apply upd_length. Qed.
Lemma empty_none p m : mrel p m -> (zlen (g_ents m) =? 0) = true <-> same p none.
Proof using RF.
  intros [_ H]. rewrite Z.eqb_eq. unfold zlen. split.
  - intros L x. rewrite H. unfold Model_BuiltinSet.g_has. destruct (g_ents m); [reflexivity|cbn in L; lia].
  - intros E. destruct (g_ents m) as [|[i k] l] eqn:El; auto. exfalso. specialize (E k). rewrite H in E. unfold Model_BuiltinSet.g_has in E. rewrite El in E. cbn in E. now rewrite RF in E.
Qed.
Lemma order_ok (h : heap) s t : orderSet s t h = (Ok (if zlen (g_ents (look h s)) <? zlen (g_ents (look h t)) then (s, t) else (t, s)), h).
Proof. unfold orderSet, b_Len, len_map, bind, ret. now destruct (_ <? _). Qed.
Lemma inter_ok w (h : heap) s t r o : wrel w h -> r <> s -> r <> t -> allocated h r = true -> look h r = g_empty ->
  exists m, range s o (do_each (fun k => ok <- b_Has eqb t k ;; if ok then b <- b_Insert eqb pick r k ;; ret tt else ret tt)) tt h = (Ok tt, put r m h) /\ mrel (fun x => sem w s x && sem w t x) m.
Proof using KE PK.
  intros R Ns Nt L E. unfold range. rewrite range_for.
  - rewrite (for_insert t r (fun b => b)) by auto. eexists. split; [reflexivity|]. destruct (wrel_sem _ _ s R) as [Ws Hs]. destruct (wrel_sem _ _ t R) as [Wt Ht].
    eapply mrel_ext; [|apply mrel_setl; rewrite E; apply mrel_empty]. intros x. cbn [none orb]. rewrite oneof_filter by (intros a b Eab; now apply has_cong). now rewrite has_keys, Hs, Ht.
  - intros [] k h'. unfold do_each, b_Has, has_key, bind, ret. destruct (g_has k (look h' t)); cbn [snd]; auto. unfold b_Insert, bind, len_map, set_key, ret. destruct (allocated h' r); cbn [snd]; auto. now apply look_put_other.
Qed.
Lemma bind_eq {S A B} (p : M S A) (f : A -> M S B) s a s' : p s = (Ok a, s') -> bind p f s = f a s'.
Proof. intros E. unfold bind. now rewrite E. Qed.
Lemma show_eq {S A B} (f : A -> B) (p : M S A) s a s' : p s = (Ok a, s') -> show f p s = (Ok (f a), s').
Proof. intros E. unfold show. now rewrite E. Qed.
Lemma all_in p l : has_all eqb l p -> forall x, In x l -> p x = true.
Proof using RF. intros [_ C] x I. apply C. exists x. split; auto. Qed.

Lemma subset_ok w (h : heap) s t o : wrel w h -> exists b, b_IsSubsetOf eqb s t o h = (Ok b, h) /\ (b = true <-> forall x, sem w s x = true -> sem w t x = true).
Proof using KE RF.
  intros R. pose proof (wrel_sem w h s R) as Ss. pose proof (wrel_sem w h t R) as St. unfold b_IsSubsetOf, b_Len, len_map, bind. destruct (_ <? _) eqn:L.
  - exists false. split; [reflexivity|]. split; [discriminate|]. intros S. apply Z.ltb_lt in L. pose proof (size_le _ _ _ _ S (size_wf _ _ Ss) (size_wf _ _ St)). lia.
  - unfold range. rewrite range_for; [|intros a k h'; unfold b_Has, has_key; now destruct (g_has k (look h' t))]. eexists. split; [apply (for_exit t negb)|]. rewrite andb_true_r, negb_true_iff, <- not_true_iff_false, existsb_exists.
    destruct Ss as [Ws Hs], St as [Wt Ht]. split.
    + intros N x X. rewrite Ht. destruct (g_has x (look h t)) eqn:E; auto. exfalso. apply N. rewrite Hs in X. destruct (proj1 (proj2 (visit_has_all eqb o _ Ws) x) X) as (y & I & Ey). exists y. split; auto. now rewrite (has_cong eqb KE _ _ _ Ey), E.
    + intros S (k & I & X). apply (all_in _ _ (visit_has_all eqb o _ Ws)) in I. rewrite <- Hs in I. apply S in I. rewrite Ht in I. rewrite I in X. discriminate.
Qed.
Lemma union_ok w (h : heap) s t o o' : wrel w h -> ref_ok (length w) s = true -> ref_ok (length w) t = true ->
  exists m, b_Union eqb pick s t o o' h = (Ok (Some (length h)), h ++ [m]) /\ mrel (fun x => sem w s x || sem w t x) m.
Proof using KE PK.
  intros R O1 O2. apply (ref_ok_ne _ _ _ R) in O1, O2. destruct (wrel_sem w h s R) as [Ws Hs]. destruct (wrel_sem w h t R) as [Wt Ht].
  unfold b_Union, make_map, bind, ret. rewrite update_other by (auto; apply alloc_snoc). rewrite put_snoc, look_new. rewrite update_other by (auto; apply alloc_snoc). rewrite put_snoc, look_new, !look_snoc by auto.
  eexists. split; [reflexivity|]. eapply mrel_ext; [|apply mrel_setl, mrel_setl, mrel_empty]. intros x. cbn [none orb]. now rewrite !has_keys, Hs, Ht.
Qed.
Lemma intersection_ok w (h : heap) s t o : wrel w h -> ref_ok (length w) s = true -> ref_ok (length w) t = true ->
  exists m, b_Intersection eqb pick s t o h = (Ok (Some (length h)), h ++ [m]) /\ mrel (fun x => sem w s x && sem w t x) m.
Proof using KE PK.
  intros R O1 O2. pose proof (wrel_len _ _ R) as Len. apply (ref_ok_ne _ _ _ R) in O1, O2.
  assert (R' : wrel (w ++ [none]) (h ++ [g_empty])) by (apply wrel_snoc; auto using mrel_empty).
  assert (SN : forall s, Some (length h) <> s -> sem (w ++ [none]) s = sem w s). { intros [i|] N; cbn; auto. destruct (Nat.lt_ge_cases i (length w)) as [Li|Li]; [now apply app_nth1|]. rewrite (nth_overflow w) by auto. rewrite app_nth2 by auto. destruct (i - length w)%nat as [|[|]] eqn:E; auto. }
  assert (E0 : b_Intersection eqb pick s t o h = (sl <- orderSet s t ;; range (fst sl) o (do_each (fun k => ok <- b_Has eqb (snd sl) k ;; if ok then b <- b_Insert eqb pick (Some (length h)) k ;; ret tt else ret tt)) tt ;; ret (Some (length h))) (h ++ [g_empty])) by reflexivity.
  rewrite (bind_eq _ _ _ _ _ (order_ok _ s t)) in E0. rewrite E0. clear E0. destruct (_ <? _); cbn [fst snd].
  - destruct (inter_ok _ _ s t (Some (length h)) o R' O1 O2 (alloc_snoc h g_empty) (look_new h g_empty)) as (m & E & Hm). rewrite (bind_eq _ _ _ _ _ E), put_snoc. rewrite !SN in Hm by auto. exists m. now split.
  - destruct (inter_ok _ _ t s (Some (length h)) o R' O2 O1 (alloc_snoc h g_empty) (look_new h g_empty)) as (m & E & Hm). rewrite (bind_eq _ _ _ _ _ E), put_snoc. rewrite !SN in Hm by auto. exists m. split; [reflexivity|]. eapply mrel_ext; [|exact Hm]. intros x. apply andb_comm.
Qed.
Lemma difference_ok w (h : heap) s t o : wrel w h -> ref_ok (length w) s = true -> ref_ok (length w) t = true ->
  exists m, b_Difference eqb pick s t o h = (Ok (Some (length h)), h ++ [m]) /\ mrel (fun x => sem w s x && negb (sem w t x)) m.
Proof using KE PK.
  intros R O1 O2. apply (ref_ok_ne _ _ _ R) in O1, O2. destruct (wrel_sem w h s R) as [Ws Hs]. destruct (wrel_sem w h t R) as [Wt Ht].
  assert (E0 : b_Difference eqb pick s t o h = (range s o (do_each (fun k => ok <- b_Has eqb t k ;; if negb ok then b <- b_Insert eqb pick (Some (length h)) k ;; ret tt else ret tt)) tt ;; ret (Some (length h))) (h ++ [g_empty])) by reflexivity.
  rewrite E0. clear E0. unfold range. erewrite bind_eq; [|rewrite range_for; [apply (for_insert t (Some (length h)) negb); auto; apply alloc_snoc|]].
  - rewrite put_snoc, look_new, !look_snoc by auto. eexists. split; [reflexivity|]. eapply mrel_ext; [|apply mrel_setl, mrel_empty]. intros x. cbn [none orb].
    rewrite oneof_filter by (intros a b Eab; f_equal; now apply has_cong). now rewrite has_keys, Hs, Ht.
  - intros [] k h'. unfold do_each, b_Has, has_key, bind, ret. destruct (g_has k (look h' t)); cbn [snd negb]; auto. unfold b_Insert, bind, len_map, set_key, ret. destruct (allocated h' _); cbn [snd]; auto. now apply look_put_other.
Qed.
Lemma disjoint_ok w (h : heap) s t o : wrel w h -> exists b, b_IsDisjointOf eqb s t o h = (Ok b, h) /\ (b = true <-> same (fun x => sem w s x && sem w t x) none).
Proof using KE RF.
  intros R. pose proof (fun s => wrel_sem w h s R) as Sem.
  assert (E : forall s t, range s o (fun (_ : bool) k => ok <- b_Has eqb t k ;; if ok then ret (false, false) else ret (true, true)) true h =
    (Ok (negb (existsb (fun k => g_has k (look h t)) (map snd (visit (rounds o (look h s)) (look h s))))), h)).
  { intros s' t'. unfold range. rewrite range_for; [|intros a k h'; unfold b_Has, has_key, bind; now destruct (g_has k (look h' t'))]. rewrite (for_exit t' (fun b => b)). now rewrite andb_true_r. }
  assert (Eb : forall s t, negb (existsb (fun k => g_has k (look h t)) (map snd (visit (rounds o (look h s)) (look h s)))) = true <-> same (fun x => sem w s x && sem w t x) none).
  { intros s' t'. destruct (Sem s') as [Ws Hs]. destruct (Sem t') as [Wt Ht]. rewrite negb_true_iff, <- not_true_iff_false, existsb_exists. split.
    - intros N x. unfold none. apply not_true_iff_false. intros X. apply andb_true_iff in X as [X1 X2]. apply N. rewrite Hs in X1. rewrite Ht in X2. destruct (proj1 (proj2 (visit_has_all eqb o _ Ws) x) X1) as (y & I & Ey). exists y. split; auto. now rewrite (has_cong eqb KE _ _ _ Ey).
    - intros N (k & I & X). specialize (N k). cbn in N. rewrite Hs, Ht, X, andb_true_r in N. rewrite (all_in _ _ (visit_has_all eqb o _ Ws) k I) in N. discriminate. }
  unfold b_IsDisjointOf. rewrite (bind_eq _ _ _ _ _ (order_ok h s t)). destruct (_ <? _); cbn [fst snd]; rewrite E; eexists; (split; [reflexivity|]); rewrite Eb; [reflexivity|].
  unfold same. split; intros X x; specialize (X x); cbn in *; now rewrite andb_comm.
Qed.
Lemma step_ok {St} w h (o : bop K St) : wrel w h -> forallb (ref_ok (length w)) (op_refs o) = true ->
  exists w', bset_spec eqb w o (fst (bset_step eqb pick o h)) w' /\ wrel w' (snd (bset_step eqb pick o h)) /\ length w' = if makes o then Datatypes.S (length w) else length w.
Proof using KE RF PK.
  intros R Ok_. pose proof (wrel_len _ _ R) as Len. pose proof (fun s => wrel_sem w h s R) as Sem. pose proof (fun s => wrel_nil w h s R) as Nil.
  destruct o; cbn [bset_step makes op_refs forallb] in *; rewrite ?andb_true_r in Ok_.
  - (* SetOf *)
    eexists. split; [|split]; [| |shelve].
    + unfold show, SetOf, b_InsertN, bind, make_map, len_map, ret. rewrite set_keys_ok by apply alloc_snoc. cbn [fst omap]. rewrite <- Len. constructor.
    + unfold show, SetOf, b_InsertN, bind, make_map, len_map, ret. rewrite set_keys_ok by apply alloc_snoc. rewrite look_new, put_snoc. cbn [snd]. apply wrel_snoc; auto. eapply mrel_ext; [|apply mrel_setl, mrel_empty]. reflexivity.
    Unshelve. rewrite app_length. cbn. lia.
  - (* Insert *)
    destruct (allocated h s) eqn:L.
    + rewrite (show_eq _ _ _ _ _ (insert_ok h s k L)). cbn [fst snd]. destruct (Sem s) as [W H]. rewrite <- H. eexists. split; [apply sp_Insert; now rewrite Nil, L|]. split; [|apply change_len]. apply wrel_change; auto. apply mrel_set. now split.
    + exists w. unfold show, b_Insert, bind, len_map, set_key. rewrite L. cbn [fst snd omap]. split; [apply sp_Insert_nil; now rewrite Nil, L|auto].
  - (* InsertN *)
    destruct (allocated h s) eqn:L.
    + unfold show, b_InsertN, bind, len_map, ret. rewrite set_keys_ok by auto. rewrite look_put_same, len_setl by auto. cbn [fst snd omap]. eexists. split; [apply sp_InsertN|split; [|apply change_len]].
      * rewrite Nil, L. reflexivity.
      * eexists. split; [|shelve]. eapply has_all_same; [|apply (pickq_all (fun x => negb (g_has x (look h s))) ks); intros a b E; f_equal; now apply has_cong]. intros x. destruct (Sem s) as [_ H]. now rewrite H.
      * apply wrel_change; auto. now apply mrel_setl.
      Unshelve. lia.
    + destruct ks as [|k ks].
      * unfold show, b_InsertN, bind, len_map, ret. cbn [set_keys]. unfold ret. rewrite Z.sub_diag. cbn [fst snd omap]. eexists. split; [apply sp_InsertN|split; [|apply change_len]].
        -- apply andb_false_r.
        -- exists []. split; [split; [intros [] j a b _ X; discriminate|]|reflexivity]. intros x. cbn. split; [discriminate|intros (y & [] & _)].
        -- rewrite <- (put_look h s). apply wrel_change; auto. eapply mrel_ext; [|apply Sem]. intros x. cbn. apply orb_false_r.
      * exists w. unfold show, b_InsertN, bind, len_map. cbn [set_keys]. unfold bind, set_key. rewrite L. cbn [fst snd omap]. split; [apply sp_InsertN_nil; [now rewrite Nil, L|discriminate]|auto].
  - (* Remove *)
    unfold show, b_Remove, has_key, del_key, bind, ret. cbn [fst snd omap]. destruct (Sem s) as [W H]. rewrite <- H. eexists. split; [apply sp_Remove|split; [|apply change_len]]. apply wrel_change; auto. apply mrel_del. now split.
  - (* RemoveN *)
    unfold show, b_RemoveN, bind, len_map, ret. rewrite del_keys_ok. cbn [fst snd omap]. destruct (Sem s) as [W H]. eexists. split; [apply sp_RemoveN|split; [|apply change_len]].
    + exists (pickq (fun x => g_has x (look h s)) ks). split; [eapply has_all_same; [|apply (pickq_all (fun x => g_has x (look h s)) ks); intros a b E; now apply has_cong]; intros x; now rewrite H|].
      destruct (allocated h s) eqn:L; [rewrite look_put_same, len_dell by auto; lia|]. rewrite put_dead, look_dead by auto. replace (pickq _ ks) with (@nil K); [unfold zlen; cbn; lia|]. clear. induction ks as [|k ks IH]; cbn; auto.
    + apply wrel_change; auto. apply mrel_dell. now split.
  - (* Delete *)
    unfold show, b_Delete, del_key. cbn [fst snd omap]. eexists. split; [apply sp_Delete|split; [|apply change_len]]. apply wrel_change; auto. now apply mrel_del.
  - (* Clear *)
    destruct (Sem s) as [W H]. assert (E : exists m, b_Clear eqb s o h = (Ok tt, put s m h) /\ mrel none m).
    { unfold b_Clear, range. destruct (allocated h s) eqn:L.
      - rewrite clear_loop by auto. eexists. split; [reflexivity|]. set (es := filter _ _). replace es with (@nil (nat * K)); [split; [repeat constructor; intros e e' []|reflexivity]|].
        symmetry. unfold es. pose proof (rounds_all o (look h s)) as A. remember (rounds o (look h s)) as os. clear - RF A. induction (g_ents (look h s)) as [|e l IH]; auto. cbn [filter].
        rewrite RF. rewrite andb_true_r. replace (existsb (Nat.eqb (fst e)) os) with true; [cbn; apply IH; intros; apply A; now right|]. symmetry. apply existsb_exists. exists (fst e). split; [apply A; now left|apply Nat.eqb_refl].
      - exists g_empty. split; [|apply mrel_empty]. rewrite put_dead by auto. rewrite look_dead by auto. assert (N : forall os h', allocated h' s = false -> range_loop s (do_each (del_key eqb s)) os tt h' = (Ok tt, h')); [|now apply N].
        induction os as [|i os IH]; intros h' L'; cbn [range_loop]; auto. rewrite look_dead by auto. cbn. now apply IH. }
    destruct E as (m & E & Hm). rewrite (show_eq _ _ _ _ _ E). cbn [fst snd]. eexists. split; [apply sp_Clear|split; [|apply change_len]]. now apply wrel_change.
  - (* Update *)
    destruct (Sem s) as [Ws Hs]. destruct (Sem t) as [Wt Ht]. destruct (allocated h s) eqn:L.
    + assert (E : exists m, b_Update eqb pick s t o h = (Ok tt, put s m h) /\ mrel (fun x => sem w s x || sem w t x) m).
      { assert (s <> t \/ s = t) as [N|<-] by (destruct s as [a|], t as [b|]; try (left; congruence); auto; destruct (Nat.eq_dec a b); [right|left]; congruence).
        - rewrite update_other by auto. eexists. split; [reflexivity|]. eapply mrel_ext; [|apply mrel_setl; split; [exact Ws|exact Hs]]. intros x. cbn. now rewrite has_keys, Ht.
        - unfold b_Update, range. destruct (update_self s h L (rounds o (look h s)) (look h s) Ws) as (m' & E & W' & H'); auto. rewrite put_look in E. exists m'. split; auto. split; auto. intros x. rewrite H', <- Hs. apply orb_diag. }
      destruct E as (m & E & Hm). rewrite (show_eq _ _ _ _ _ E). cbn [fst snd]. eexists. split; [apply sp_Update; left; now rewrite Nil, L|split; [|apply change_len]]. now apply wrel_change.
    + unfold show. rewrite update_dead by auto. pose proof (empty_none _ _ (Sem t)) as Em. destruct (zlen (g_ents (look h t)) =? 0).
      * cbn [fst snd omap]. eexists. split; [apply sp_Update; right; now apply Em|split; [|apply change_len]]. rewrite <- (put_look h s). apply wrel_change; auto. eapply mrel_ext; [|apply Sem]. intros x. cbn. assert (sem w t x = false) as -> by now apply Em. apply orb_false_r.
      * cbn [fst snd omap]. exists w. split; [apply sp_Update_nil; [now rewrite Nil, L|]|auto]. intros X. apply Em in X. discriminate.
  - (* Has *) exists w. unfold show, b_Has, has_key. cbn [fst snd omap]. destruct (Sem s) as [_ H]. rewrite <- H. split; [constructor|auto].
  - (* Len *) exists w. unfold show, b_Len, len_map. cbn [fst snd omap]. split; [constructor; now apply size_wf|auto].
  - (* IsEmpty *) exists w. unfold show, b_IsEmpty, len_map, bind, ret. cbn [fst snd omap]. split; [constructor; now apply empty_none|auto].
  - (* Keys *) exists w. unfold show, b_Keys, range. rewrite range_for by auto. rewrite for_collect. cbn [fst snd omap app]. destruct (Sem s) as [W H]. split; [constructor|auto]. eapply has_all_same; [|now apply visit_has_all]. intros x. now rewrite H.
  - (* ForEach *) exists w. unfold show, b_ForEach, range. rewrite range_for by auto. rewrite for_fold. cbn [fst snd omap app]. destruct (Sem s) as [W H]. split; [constructor|auto]. eapply has_all_same; [|now apply visit_has_all]. intros x. now rewrite H.
  - (* ForEachIf *) exists w. unfold show, b_ForEachIf, range. rewrite range_for; [|intros a k h'; now destruct (cb a k) as [[] ?]]. rewrite for_while. cbn [fst snd omap app]. destruct (Sem s) as [W H]. split; [constructor|auto]. eapply has_all_same; [|now apply visit_has_all]. intros x. now rewrite H.
  - (* Union *)
    apply andb_true_iff in Ok_ as [O1 O2]. destruct (union_ok w h s t o o' R O1 O2) as (m & E & Hm). rewrite (show_eq _ _ _ _ _ E). cbn [fst snd]. eexists. split; [rewrite <- Len; apply sp_Union|split; [|rewrite app_length; cbn; lia]]. now apply wrel_snoc.
  - (* Intersection *)
    apply andb_true_iff in Ok_ as [O1 O2]. destruct (intersection_ok w h s t o R O1 O2) as (m & E & Hm). rewrite (show_eq _ _ _ _ _ E). cbn [fst snd]. eexists. split; [rewrite <- Len; apply sp_Intersection|split; [|rewrite app_length; cbn; lia]]. now apply wrel_snoc.
  - (* Difference *)
    apply andb_true_iff in Ok_ as [O1 O2]. destruct (difference_ok w h s t o R O1 O2) as (m & E & Hm). rewrite (show_eq _ _ _ _ _ E). cbn [fst snd]. eexists. split; [rewrite <- Len; apply sp_Difference|split; [|rewrite app_length; cbn; lia]]. now apply wrel_snoc.
  - (* IsDisjointOf *)
    exists w. destruct (disjoint_ok w h s t o R) as (b & E & Hb). rewrite (show_eq _ _ _ _ _ E). cbn [fst snd]. split; [now constructor|auto].
  - (* IsSubsetOf *)
    exists w. destruct (subset_ok w h s t o R) as (b & E & Hb). rewrite (show_eq _ _ _ _ _ E). cbn [fst snd]. split; [now constructor|auto].
  - (* IsSupersetOf *)
    exists w. destruct (subset_ok w h t s o R) as (b & E & Hb). unfold b_IsSupersetOf. rewrite (show_eq _ _ _ _ _ E). cbn [fst snd]. split; [now constructor|auto].
Qed.
End R.
