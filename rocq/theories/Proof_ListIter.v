(** Lists with element identities. *)
From Verif Require Import BaseLemmas Spec Nodes Proof_Nodes Spec_ListIter.
Set Default Proof Using "Type".

(** *** Worlds *)
Lemma NoDup_app_split {A} (a b : list A) : NoDup (a ++ b) -> NoDup a /\ NoDup b /\ forall x, In x a -> ~ In x b.
Proof.
  induction a as [|x a IH]; cbn; intros H; [repeat split; [constructor|auto|contradiction]|]. inversion H as [|? ? NI ND]; subst. destruct (IH ND) as (H1 & H2 & H3).
  rewrite in_app_iff in NI. repeat split; auto; [constructor; auto|]. intros y [<-|I]; auto.
Qed.
Section W.
Context {T Q : Type}.
Variable to : option nat -> Q.
Notation W := (lworld T Q).
Implicit Types (w : W) (l L R : list (nat * T)) (i j : nat) (v : T).
Definition ids w : list nat := map fst (w_live w) ++ map fst (map fst (w_gone w)).
Definition wf w : Prop := Permutation (ids w) (seq 0 (w_made w)).
Lemma wf_in w i : wf w -> (i < w_made w)%nat <-> In i (ids w).
Proof. intros P. split; intros H; [eapply Permutation_in; [symmetry; exact P|]; apply in_seq; lia|]. apply (Permutation_in _ P), in_seq in H. lia. Qed.
Lemma wf_nodup w : wf w -> NoDup (ids w).
Proof. intros P. eapply Permutation_NoDup; [symmetry; exact P|]. apply seq_NoDup. Qed.
Lemma wf_parts w : wf w -> NoDup (map fst (w_live w)) /\ NoDup (map fst (map fst (w_gone w))) /\ forall i, In i (map fst (w_live w)) -> ~ In i (map fst (map fst (w_gone w))).
Proof. intros H. apply wf_nodup in H. now apply NoDup_app_split in H. Qed.
Lemma live_lt w i v : wf w -> In (i, v) (w_live w) -> (i < w_made w)%nat.
Proof. intros H I. apply wf_in; auto. apply in_app_iff. left. now apply (in_map fst) in I. Qed.
Lemma gone_lt w i v q : wf w -> In (i, v, q) (w_gone w) -> (i < w_made w)%nat.
Proof. intros H I. apply wf_in; auto. apply in_app_iff. right. now apply (in_map fst), (in_map fst) in I. Qed.
Lemma wf_empty : wf w_empty.
Proof. constructor. Qed.
Lemma seq_push n : Permutation (n :: seq 0 n) (seq 0 (S n)).
Proof. rewrite seq_S. cbn. apply Permutation_cons_append. Qed.
Lemma wf_push_front v w : wf w -> wf (push_front v w).
Proof. unfold wf, ids, push_front. cbn [w_live w_gone w_made map fst app]. intros H. eapply Permutation_trans; [|apply seq_push]. now constructor. Qed.
Lemma wf_push_back v w : wf w -> wf (push_back v w).
Proof.
  unfold wf, ids, push_back. cbn [w_live w_gone w_made]. intros H. eapply Permutation_trans; [|apply seq_push]. rewrite map_app, <- app_assoc. cbn [map fst app].
  eapply Permutation_trans; [symmetry; apply Permutation_middle|]. now constructor.
Qed.
Lemma wf_pop_front q w : wf w -> wf (pop_front q w).
Proof.
  unfold wf, ids, pop_front. destruct (w_live w) as [|e r] eqn:E; [now rewrite E|]. cbn [w_live w_gone w_made map fst]. intros H. eapply Permutation_trans; [symmetry; apply Permutation_middle|]. exact H.
Qed.
Lemma wf_pop_back q w : wf w -> wf (pop_back q w).
Proof.
  unfold wf, ids, pop_back. destruct (rev (w_live w)) as [|e r] eqn:E; [auto|]. cbn [w_live w_gone w_made map fst]. intros H.
  apply (f_equal (@rev _)) in E. rewrite rev_involutive in E. cbn in E. rewrite E, map_app, <- app_assoc in H. exact H.
Qed.
Lemma leaving_ids l : map fst (leaving to l) = l.
Proof. induction l as [|e l IH]; cbn; congruence. Qed.
Lemma leaving_in l i v q : In (i, v, q) (leaving to l) -> exists L R, l = L ++ (i, v) :: R /\ q = to (first_id R).
Proof.
  induction l as [|e l IH]; cbn; [contradiction|]. intros [E|I]; [injection E as -> <-; exists [], l; auto|]. destruct (IH I) as (L & R & -> & ->). exists (e :: L), R. auto.
Qed.
Lemma wf_clear w : wf w -> wf (clear to w).
Proof. unfold wf, ids, clear. cbn [w_live w_gone w_made map app]. now rewrite !map_app, leaving_ids. Qed.
Lemma wf_reverse w : wf w -> wf (reverse w).
Proof. unfold wf, ids, reverse. cbn [w_live w_gone w_made]. intros H. eapply Permutation_trans; [|exact H]. apply Permutation_app_tail. rewrite map_rev. symmetry. apply Permutation_rev. Qed.
Lemma combine_fst {X Y} (a : list X) : forall b : list Y, length b = length a -> map fst (combine a b) = a.
Proof. induction a as [|x a IH]; intros [|y b] E; try discriminate; cbn; auto. f_equal. auto. Qed.
Lemma combine_snd {X Y} (a : list X) : forall b : list Y, length b = length a -> map snd (combine a b) = b.
Proof. induction a as [|x a IH]; intros [|y b] E; try discriminate; cbn; auto. f_equal. auto. Qed.
Lemma revalue_ids xs w : length xs = length (w_live w) -> ids (revalue xs w) = ids w.
Proof. intros E. unfold ids, revalue. cbn [w_live w_gone]. rewrite combine_fst; auto. now rewrite map_length. Qed.
Lemma wf_revalue xs w : length xs = length (w_live w) -> wf w -> wf (revalue xs w).
Proof. unfold wf. intros E. now rewrite revalue_ids. Qed.
Lemma write_fst i v (e : nat * T) : fst (write i v e) = fst e.
Proof. unfold write. now destruct (Nat.eqb (fst e) i). Qed.
Lemma store_ids i v w : ids (store i v w) = ids w.
Proof. unfold ids, store. cbn [w_live w_gone]. rewrite !map_map. f_equal; apply map_ext; intros; cbn; apply write_fst. Qed.
Lemma wf_store i v w : wf w -> wf (store i v w).
Proof. unfold wf. now rewrite store_ids. Qed.
Lemma write_other i v l : ~ In i (map fst l) -> map (write i v) l = l.
Proof.
  intros NI. rewrite <- (map_id l) at 2. apply map_ext_in. intros e I. unfold write. destruct (Nat.eqb_spec (fst e) i) as [<-|]; auto. exfalso. apply NI. now apply in_map.
Qed.
Lemma write_mid i v u L R : NoDup (map fst (L ++ (i, u) :: R)) -> map (write i v) (L ++ (i, u) :: R) = L ++ (i, v) :: R.
Proof.
  intros ND. rewrite map_app in ND |- *. cbn [map fst] in *. pose proof (NoDup_remove_2 _ _ _ ND) as NI. rewrite in_app_iff in NI. rewrite !write_other by tauto. unfold write. cbn [fst snd]. now rewrite Nat.eqb_refl.
Qed.
Lemma write_gone i v (g : list (nat * T * Q)) : ~ In i (map fst (map fst g)) -> map (fun x => (write i v (fst x), snd x)) g = g.
Proof.
  intros NI. rewrite <- (map_id g) at 2. apply map_ext_in. intros [[j u] q] I. unfold write. cbn [fst snd]. destruct (Nat.eqb_spec j i) as [<-|]; auto. exfalso. apply NI.
  apply (in_map fst), (in_map fst) in I. exact I.
Qed.

Lemma find_value l i v : NoDup (map fst l) -> In (i, v) l -> find (fun e => Nat.eqb (fst e) i) l = Some (i, v).
Proof.
  induction l as [|[j u] l IH]; intros ND I; [contradiction|]. cbn. inversion ND as [|? ? NI ND']; subst. destruct I as [E|I].
  - injection E as -> ->. now rewrite Nat.eqb_refl.
  - destruct (Nat.eqb_spec j i) as [->|]; [exfalso; apply NI; now apply (in_map fst) in I|auto].
Qed.
Lemma find_gone (g : list (nat * T * Q)) i v q : NoDup (map fst (map fst g)) -> In (i, v, q) g -> find (fun e => Nat.eqb (fst (fst e)) i) g = Some (i, v, q).
Proof.
  induction g as [|[[j u] p] g IH]; intros ND I; [contradiction|]. cbn in *. inversion ND as [|? ? NI ND']; subst. destruct I as [E|I].
  - injection E as -> -> ->. now rewrite Nat.eqb_refl.
  - destruct (Nat.eqb_spec j i) as [->|]; [exfalso; apply NI; now apply (in_map fst), (in_map fst) in I|auto].
Qed.
Lemma behind_none l i : ~ In i (map fst l) -> behind i l = None.
Proof. induction l as [|[j u] l IH]; cbn; auto. intros NI. destruct (Nat.eqb_spec j i) as [->|]; [tauto|apply IH; tauto]. Qed.
Lemma behind_mid L i v R : ~ In i (map fst L) -> behind i (L ++ (i, v) :: R) = Some (first_id R).
Proof. induction L as [|[j u] L IH]; cbn; intros NI; [now rewrite Nat.eqb_refl|]. destruct (Nat.eqb_spec j i) as [->|]; [tauto|apply IH; tauto]. Qed.
(** Every element is stored or gone. *)
Lemma id_cases w i : wf w -> (i < w_made w)%nat ->
  (exists L v R, w_live w = L ++ (i, v) :: R /\ value_of i w = Some v /\ next_of to i w = Some (to (first_id R)) /\ ~ In i (map fst (map fst (w_gone w)))) \/
  (exists v q, In (i, v, q) (w_gone w) /\ value_of i w = Some v /\ next_of to i w = Some q /\ ~ In i (map fst (w_live w))).
Proof.
  intros H Li. pose proof (wf_nodup _ H) as ND. destruct (wf_parts _ H) as (N1 & N2 & N3). apply wf_in in Li; auto.
  assert (V : forall v, In (i, v) (w_live w ++ map fst (w_gone w)) -> value_of i w = Some v).
  { intros v I. unfold value_of. rewrite (find_value _ i v); auto. unfold ids in ND. now rewrite map_app. }
  unfold ids in Li. apply in_app_iff in Li as [I|I].
  - left. assert (NG := N3 _ I). apply in_map_iff in I as ([j v] & Ej & I). cbn in Ej. subst j. specialize (V v (in_or_app _ _ _ (or_introl I))). apply in_split in I as (L & R & E). exists L, v, R. split; auto. split; auto. split; auto.
    unfold next_of. rewrite E. rewrite behind_mid; auto. rewrite E, map_app in N1. cbn in N1. apply NoDup_remove_2 in N1. intros I. apply N1. apply in_app_iff. now left.
  - right. assert (NL : ~ In i (map fst (w_live w))) by (intros I2; now apply (N3 _ I2)). rewrite map_map in I. apply in_map_iff in I as ([[j v] q] & Ej & I). cbn in Ej. subst j. exists v, q. split; auto.
    split; [apply V; apply in_app_iff; right; now apply (in_map fst) in I|]. split; auto. unfold next_of. rewrite behind_none by auto. now rewrite (find_gone _ i v q).
Qed.
Lemma first_lt w : wf w -> forall j, first_id (w_live w) = Some j -> (j < w_made w)%nat.
Proof. intros H j E. destruct (w_live w) as [|[i v] r] eqn:El; [discriminate|]. injection E as <-. eapply live_lt; eauto. rewrite El. now left. Qed.
Lemma behind_lt w L i v R : wf w -> w_live w = L ++ (i, v) :: R -> forall j, first_id R = Some j -> (j < w_made w)%nat.
Proof. intros H E j Ej. destruct R as [|[x u] R]; [discriminate|]. injection Ej as <-. eapply (live_lt w x u); auto. rewrite E. apply in_app_iff. right. right. now left. Qed.

(** *** Addresses *)
Definition cell (f : nat -> nat) (e : nat * T) : nat * T := (f (fst e), snd e).
Lemma cell_fst f l : map fst (map (cell f) l) = map f (map fst l).
Proof. now rewrite !map_map. Qed.
Lemma cell_snd f l : map snd (map (cell f) l) = map snd l.
Proof. now rewrite map_map. Qed.
Lemma cells_eq f l' L : map fst l' = map f (map fst L) -> map snd l' = map snd L -> l' = map (cell f) L.
Proof.
  revert L. induction l' as [|[a v] l' IH]; intros [|[i u] L] E1 E2; try discriminate; auto. cbn in *. injection E1 as -> E1. injection E2 as -> E2. unfold cell at 1. cbn. f_equal. auto.
Qed.
Lemma cells_revalue f l' w : map fst l' = map f (map fst (w_live w)) -> l' = map (cell f) (w_live (revalue (map snd l') w)) /\ length (map snd l') = length (w_live w).
Proof.
  intros E. assert (EL : length (map snd l') = length (w_live w)) by (apply (f_equal (@length _)) in E; rewrite !map_length in E; now rewrite map_length). split; auto.
  apply cells_eq; unfold revalue; cbn [w_live]; [rewrite combine_fst|rewrite combine_snd]; auto; now rewrite !map_length in *.
Qed.
(** A new element at address a. *)
Definition ext (f : nat -> nat) (n a i : nat) : nat := if Nat.eqb i n then a else f i.
Lemma ext_old f n a i : (i < n)%nat -> ext f n a i = f i.
Proof. intros L. unfold ext. destruct (Nat.eqb_spec i n); auto. lia. Qed.
Lemma ext_new f n a : ext f n a n = a.
Proof. unfold ext. now rewrite Nat.eqb_refl. Qed.
Lemma ext_cells f n a l : Forall (fun e => (fst e < n)%nat) l -> map (cell (ext f n a)) l = map (cell f) l.
Proof. intros F. apply map_ext_in. intros e I. rewrite Forall_forall in F. unfold cell. now rewrite ext_old by (now apply F). Qed.
Lemma live_forall w : wf w -> Forall (fun e => (fst e < w_made w)%nat) (w_live w).
Proof. intros H. apply Forall_forall. intros [i v] I. eapply live_lt; eauto. Qed.
Definition injf (f : nat -> nat) (n : nat) : Prop := forall i j, (i < n)%nat -> (j < n)%nat -> f i = f j -> i = j.
Lemma inj_ext f n a : injf f n -> (forall i, (i < n)%nat -> f i <> a) -> injf (ext f n a) (S n).
Proof.
  intros I N i j Li Lj. unfold ext. destruct (Nat.eqb_spec i n), (Nat.eqb_spec j n); intros E; try lia.
  - exfalso. apply (N j); [lia|congruence].
  - exfalso. apply (N i); [lia|congruence].
  - apply I; auto; lia.
Qed.
End W.

(** *** What is known: the addresses of the elements made so far, and of the end. *)
Definition know := ((nat -> nat) * nat * option nat)%type.
Definition kle (k k' : know) : Prop :=
  (snd (fst k) <= snd (fst k'))%nat /\ (forall i, (i < snd (fst k))%nat -> fst (fst k') i = fst (fst k) i) /\ (forall a, snd k = Some a -> snd k' = Some a).
Lemma kle_refl k : kle k k.
Proof. repeat split; auto. Qed.
Lemma kle_trans a b c : kle a b -> kle b c -> kle a c.
Proof. intros (A1 & A2 & A3) (B1 & B2 & B3). split; [lia|]. split; auto. intros i L. rewrite B2, A2; auto. lia. Qed.
Lemma kle_ext f n a o : kle (f, n, o) (ext f n a, S n, o).
Proof. repeat split; cbn; auto. intros i L. now apply ext_old. Qed.

(** Elements that leave: their nodes stay as they are. *)
Definition retire {N} (fr : nat -> option (N)) (xs : list nat) (h : list (N)) (a : nat) : option (N) := if existsb (Nat.eqb a) xs then nth_error h a else fr a.
Lemma existsb_in a xs : existsb (Nat.eqb a) xs = true <-> In a xs.
Proof. rewrite existsb_exists. split; [intros (x & I & E); apply Nat.eqb_eq in E; now subst|intros I; exists a; split; auto; apply Nat.eqb_refl]. Qed.
Lemma retire_in {N} (fr : nat -> option N) xs h a : In a xs -> retire fr xs h a = nth_error h a.
Proof. intros I. unfold retire. now rewrite (proj2 (existsb_in a xs) I). Qed.
Lemma retire_out {N} (fr : nat -> option N) xs h a : ~ In a xs -> retire fr xs h a = fr a.
Proof. intros I. unfold retire. destruct (existsb (Nat.eqb a) xs) eqn:E; auto. now apply existsb_in in E. Qed.
Lemma retire_keeps {N} (fr : nat -> option N) xs h : keeps fr h -> keeps (retire fr xs h) h.
Proof. intros K a n. unfold retire. destruct (existsb (Nat.eqb a) xs); auto. Qed.

