(** Iterators and pointers of a skip list kept over any calls. *)
From Coq Require Import Sorted.
From Verif Require Import BaseLemmas Spec Trace Spec_List Spec_Map Nodes Proof_Nodes Model_SkipList Proof_SkipList Proof_Map Proof_SkipListAny Spec_SkipIter Model_SkipIter.
Set Default Proof Using "Type".
Local Arguments zlen : simpl never. Local Arguments pload : simpl never.

Section Lists.
Context {K V : Type}.
Implicit Types (l L R : list (nat * (K * V))) (e : nat * (K * V)) (p : K * V).
Lemma find_id_in l i p : NoDup (map fst l) -> In (i, p) l -> find_id i l = Some p.
Proof.
  unfold find_id. induction l as [|[j q] l IH]; intros ND I; [contradiction|]. cbn. inversion ND; subst. destruct I as [E|I].
  - injection E as -> ->. now rewrite Nat.eqb_refl.
  - destruct (Nat.eqb_spec j i) as [->|]; [exfalso; apply H1; now apply (in_map fst) in I|auto].
Qed.
Lemma behind_mid L i p R : ~ In i (map fst L) -> behind i (L ++ (i, p) :: R) = Some (first_id (K := K) (V := V) R).
Proof.
  induction L as [|[j q] L IH]; intros NI; cbn; [now rewrite Nat.eqb_refl|]. destruct (Nat.eqb_spec j i) as [->|]; [exfalso; apply NI; now left|]. apply IH. intros I. apply NI. now right.
Qed.
Lemma behind_none l i : ~ In i (map fst l) -> behind i l = None.
Proof.
  induction l as [|[j q] l IH]; intros NI; cbn; auto. destruct (Nat.eqb_spec j i) as [->|]; [exfalso; apply NI; now left|]. apply IH. intros I. apply NI. now right.
Qed.
Lemma NoDup_app_l {T} (a b : list T) : NoDup (a ++ b) -> NoDup a.
Proof. induction a as [|x a IH]; cbn; [constructor|]. rewrite !NoDup_cons_iff, in_app_iff. intuition. Qed.
Lemma write_ids i v l : map fst (map (write i v) l) = map fst l.
Proof. rewrite map_map. apply map_ext. intros e. unfold write. now destruct (Nat.eqb (fst e) i). Qed.
Lemma write_other i v l : ~ In i (map fst l) -> map (write i v) l = l.
Proof.
  intros NI. rewrite <- (map_id l) at 2. apply map_ext_in. intros e I. unfold write. destruct (Nat.eqb_spec (fst e) i) as [<-|]; auto. exfalso. apply NI. now apply in_map.
Qed.
Lemma write_mid i v L p R : NoDup (map fst (L ++ (i, p) :: R)) -> map (write i v) (L ++ (i, p) :: R) = L ++ (i, (fst p, v)) :: R.
Proof.
  intros ND. rewrite map_app in *. cbn [map] in *. pose proof (NoDup_remove_2 _ _ _ ND) as NI. rewrite in_app_iff in NI.
  rewrite !write_other by (intros I; apply NI; auto). unfold write. cbn [fst snd]. now rewrite Nat.eqb_refl.
Qed.
Lemma leaving_none (p : K * V -> bool) l : Forall (fun e => p (snd e) = false) l -> leaving p l = [] /\ filter (fun e => negb (p (snd e))) l = l.
Proof. induction 1 as [|e l H F [IH1 IH2]]; cbn; auto. rewrite H. cbn. now rewrite IH2. Qed.
Lemma leaving_mid (p : K * V -> bool) L e R : Forall (fun e => p (snd e) = false) L -> p (snd e) = true -> Forall (fun e => p (snd e) = false) R ->
  leaving p (L ++ e :: R) = [(e, first_id R)] /\ filter (fun e => negb (p (snd e))) (L ++ e :: R) = L ++ R.
Proof.
  intros FL He FR. induction FL as [|x L H F [IH1 IH2]]; cbn.
  - rewrite He. cbn. destruct (leaving_none p R FR) as [-> ->]. auto.
  - rewrite H. cbn. now rewrite IH2.
Qed.
Lemma leaving_all l : map fst (leaving (fun _ => true) l) = l /\ filter (fun _ => negb true) l = [].
Proof. induction l as [|e l [IH1 IH2]]; cbn; auto. now rewrite IH1. Qed.
Lemma leaving_all_in l e n : In (e, n) (leaving (fun _ => true) l) -> exists L R, l = L ++ e :: R /\ n = first_id R.
Proof.
  induction l as [|x l IH]; cbn; [contradiction|]. intros [E|I]; [injection E as <- <-; exists [], l; auto|]. destruct (IH I) as (L & R & -> & ->). exists (x :: L), R. auto.
Qed.
Lemma first_filter (P : K * V -> bool) A B : Forall (fun e => P (snd e) = false) A -> match B with [] => True | e :: _ => P (snd e) = true end ->
  first_id (filter (fun e => P (snd e)) (A ++ B)) = first_id B.
Proof.
  intros FA HB. induction FA as [|x A H F IH]; cbn; [|now rewrite H]. destruct B as [|e B]; auto. cbn. now rewrite HB.
Qed.
Lemma map_fst_combine {X Y} (a : list X) (b : list Y) : length a = length b -> map fst (combine a b) = a.
Proof. revert b. induction a as [|x a IH]; intros [|y b] L; cbn in *; try discriminate; auto. injection L as L. now rewrite IH. Qed.
Lemma map_snd_combine {X Y} (a : list X) (b : list Y) : length a = length b -> map snd (combine a b) = b.
Proof. revert b. induction a as [|x a IH]; intros [|y b] L; cbn in *; try discriminate; auto. injection L as L. now rewrite IH. Qed.
Lemma map_combine_l {X X' Y} (f : X -> X') (a : list X) : forall (b : list Y), map (fun xy => (f (fst xy), snd xy)) (combine a b) = combine (map f a) b.
Proof. induction a as [|x a IH]; intros [|y b]; cbn; auto. now rewrite IH. Qed.
End Lists.

Section Rel.
Context {K V : Type}.
Variables (eqk gtk : K -> K -> bool) (impl : @slimpl K V).
Hypothesis SP : impl_spec eqk gtk impl.
Variable lt : K -> K -> bool.
Hypothesis SW : strict_weak lt.
Hypothesis Eq : forall a b : K, eqk a b = eqv lt a b.
Hypothesis Gt : forall a b : K, gtk a b = lt b a.
Notation heap := (list (slnode K V)).
Notation estate := (estate K V).
Notation below k m := (Forall (fun p : K * V => lt (fst p) k = true) m).
Notation same k m := (Forall (fun p : K * V => eqv lt (fst p) k = true) m).
Notation above k m := (Forall (fun p : K * V => lt k (fst p) = true) m).
Implicit Types (f : nat -> nat) (e : estate) (ps A B : list (@cell K V)) (h : heap).
Definition cc (c : @cell K V) := (ca c, (ck c, cv c)).
Definition ff f (x : nat * (K * V)) := (f (fst x), snd x).
Definition ids e := map fst (e_live e) ++ map fst (map fst (e_gone e)).

Record XR f (fr : nat -> option (slnode K V)) (hd : nat) ps e (s : heap * sklist) : Prop := mkXR {
  x_rep : rep fr hd ps s;
  x_live : map cc ps = map (ff f) (e_live e);
  x_sorted : ksorted lt (map snd (e_live e));
  x_inj : forall i j, (i < e_made e)%nat -> (j < e_made e)%nat -> f i = f j -> i = j;
  x_ids : forall i, (i < e_made e)%nat <-> In i (ids e);
  x_nodup : NoDup (ids e);
  x_gone : forall g, In g (e_gone e) -> exists n, fr (f (fst (fst g))) = Some n /\ (n_key n, n_value n) = snd (fst g) /\ nth_error (n_next n) 0 = Some (option_map f (snd g)) /\ (forall j, snd g = Some j -> (j < e_made e)%nat) }.

Lemma x_kvs f ps e : map cc ps = map (ff f) (e_live e) -> kvs ps = map snd (e_live e).
Proof. intros E. apply (f_equal (map snd)) in E. rewrite !map_map in E. exact E. Qed.
Lemma x_addrs f ps e : map cc ps = map (ff f) (e_live e) -> addrs ps = map f (map fst (e_live e)).
Proof. intros E. apply (f_equal (map fst)) in E. rewrite !map_map in E. rewrite map_map. exact E. Qed.
Lemma cc_split f ps L R : map cc ps = map (ff f) (L ++ R) -> exists A B, ps = A ++ B /\ map cc A = map (ff f) L /\ map cc B = map (ff f) R.
Proof. rewrite map_app. apply map_eq_app. Qed.
Lemma cc_split2 f A B l : map cc (A ++ B) = map (ff f) l -> exists L R, l = L ++ R /\ map cc A = map (ff f) L /\ map cc B = map (ff f) R.
Proof. rewrite map_app. intros E. symmetry in E. apply map_eq_app in E as (L & R & -> & E1 & E2). eauto. Qed.
Lemma cc_cons f ps i p R : map cc ps = map (ff f) ((i, p) :: R) -> exists c B, ps = c :: B /\ ca c = f i /\ (ck c, cv c) = p /\ map cc B = map (ff f) R.
Proof. cbn. intros E. apply map_eq_cons in E as (c & B & -> & E1 & E2). injection E1 as E1 E3. exists c, B. auto. Qed.
Lemma cc_cons2 f c B l : map cc (c :: B) = map (ff f) l -> exists i R, l = (i, (ck c, cv c)) :: R /\ ca c = f i /\ map cc B = map (ff f) R.
Proof. cbn. intros E. symmetry in E. apply map_eq_cons in E as ([i p] & R & -> & E1 & E2). injection E1 as E1 E3. cbn in E3. subst p. exists i, R. auto. Qed.
Lemma cc_first f B R : map cc B = map (ff f) R -> firstp B = option_map f (first_id R).
Proof. destruct B as [|c B], R as [|[i p] R]; cbn; try discriminate; auto. intros E. now injection E as -> _. Qed.
Lemma cc_forall f (P : K * V -> bool) b A L : map cc A = map (ff f) L -> Forall (fun p => P p = b) (kvs A) -> Forall (fun x => P (snd x) = b) L.
Proof.
  intros E F. apply (Forall_map snd (fun p => P p = b)). replace (map snd L) with (kvs A); auto. apply (f_equal (map snd)) in E. rewrite !map_map in E. exact E.
Qed.

(** Every element is stored or gone. *)
Lemma id_cases f fr hd ps e h l i : XR f fr hd ps e (h, l) -> (i < e_made e)%nat ->
  (exists L p R A c B, e_live e = L ++ (i, p) :: R /\ ps = A ++ c :: B /\ ca c = f i /\ (ck c, cv c) = p /\ map cc A = map (ff f) L /\ map cc B = map (ff f) R /\ ~ In i (map fst L)) \/
  (exists p q, In (i, p, q) (e_gone e) /\ ~ In i (map fst (e_live e))).
Proof.
  intros X Li. apply (x_ids _ _ _ _ _ _ X) in Li. pose proof (x_nodup _ _ _ _ _ _ X) as ND. unfold ids in *. apply in_app_iff in Li as [I|I].
  - left. apply in_map_iff in I as ([j p] & Ej & I). cbn in Ej. subst j. apply in_split in I as (L & R & E). exists L, p, R.
    pose proof (x_live _ _ _ _ _ _ X) as Lv. rewrite E in Lv. apply cc_split in Lv as (A & B' & -> & EA & EB). apply cc_cons in EB as (c & B & -> & Ea & Ep & EB). exists A, c, B.
    repeat (split; [solve [auto]|]). rewrite E, map_app in ND. cbn in ND. rewrite <- app_assoc in ND. cbn in ND. apply NoDup_remove_2 in ND. intros I. apply ND. apply in_app_iff. now left.
  - right. assert (I2 := I). apply in_map_iff in I as ([j p] & Ej & I). cbn in Ej. subst j. apply in_map_iff in I as ([[j q] n] & Ej & I). cbn in Ej. injection Ej as -> ->. exists p, n. split; auto.
    intros I3. apply in_split in I3 as (a & b & E3). rewrite E3, <- app_assoc in ND. cbn in ND. apply NoDup_remove_2 in ND. apply ND. apply in_app_iff. right. apply in_app_iff. now right.
Qed.
Lemma gone_nodup f fr hd ps e s : XR f fr hd ps e s -> NoDup (map fst (map fst (e_gone e))).
Proof. intros X. pose proof (x_nodup _ _ _ _ _ _ X) as ND. unfold ids in ND. now apply NoDup_app_r in ND. Qed.
Lemma find_gone (g : list (nat * (K * V) * option nat)) i p q : NoDup (map fst (map fst g)) -> In (i, p, q) g -> find (fun g => Nat.eqb (fst (fst g)) i) g = Some (i, p, q).
Proof.
  induction g as [|[[j p'] q'] g IH]; intros ND I; [contradiction|]. cbn in *. inversion ND; subst. destruct I as [E|I].
  - injection E as -> -> ->. now rewrite Nat.eqb_refl.
  - destruct (Nat.eqb_spec j i) as [->|]; [|auto]. exfalso. apply H1. apply (in_map fst), (in_map fst) in I. exact I.
Qed.
(** Its node, and the pair and the next element the specification gives. *)
Lemma id_node f fr hd ps e h l i : XR f fr hd ps e (h, l) -> (i < e_made e)%nat -> exists p q n,
  pair_of i e = Some p /\ next_of i e = Some q /\ nd h (f i) = Some (fst p, snd p, n) /\ nx h (f i) 0 = Some (option_map f q) /\ (forall j, q = Some j -> (j < e_made e)%nat).
Proof.
  intros X Li. pose proof (x_nodup _ _ _ _ _ _ X) as ND. pose proof (x_ids _ _ _ _ _ _ X) as Id.
  assert (Pr : forall p, In (i, p) (e_live e ++ map fst (e_gone e)) -> pair_of i e = Some p) by (intros p I; apply find_id_in; auto; unfold ids in ND; now rewrite map_app).
  destruct (id_cases f fr hd ps e h l i X Li) as [(L & p & R & A & c & B & El & Ep & Ea & Ec & EA & EB & NI)|(p & q & I & NI)].
  - exists p, (first_id R), (ch c). subst ps. pose proof (x_rep _ _ _ _ _ _ X) as Rp. rewrite <- Ea. split; [apply Pr; rewrite El; rewrite <- app_assoc; apply in_app_iff; right; now left|].
    split; [unfold next_of; now rewrite El, behind_mid|]. split; [rewrite <- Ec; apply (rep_cell _ _ _ _ _ c Rp); apply in_app_iff; right; now left|].
    split; [rewrite (rep_next _ _ _ _ _ _ _ Rp); f_equal; now apply cc_first|]. intros j Ej. apply Id. unfold ids. rewrite El, map_app. apply in_app_iff. left. apply in_app_iff. right. right. destruct R as [|x R]; [discriminate|]. injection Ej as <-. now left.
  - destruct (x_gone _ _ _ _ _ _ X _ I) as (n & Fn & Kv & Nx & Bd). cbn [fst snd] in *. exists p, q, (length (n_next n)). pose proof (r_keeps _ _ _ _ (x_rep _ _ _ _ _ _ X) _ _ Fn) as Hn. cbn in Hn.
    split; [apply Pr; apply in_app_iff; right; apply (in_map fst) in I; exact I|]. split; [unfold next_of; rewrite behind_none by auto; rewrite (find_gone _ i p q); auto; eapply gone_nodup; eauto|].
    split; [unfold nd; rewrite Hn; cbn; now rewrite <- Kv|]. split; [unfold nx; now rewrite Hn|exact Bd].
Qed.

(** *** Frames *)
Lemma rep_reframe fr fr' hd ps s : rep fr hd ps s -> keeps fr' (fst s) -> (forall a, In a (hd :: addrs ps) -> fr' a = None) -> rep fr' hd ps s.
Proof. intros [] Kp Ab. constructor; auto. Qed.
(** Writing a value of a node outside the list. *)
Lemma rep_outside fr hd ps h l a v n : rep fr hd ps (h, l) -> fr a = Some n ->
  rep (fun b => if Nat.eqb a b then Some (mkSLNode (n_key n) v (n_next n)) else fr b) hd ps (sv a v h, l).
Proof.
  intros R Fa. pose proof (r_keeps _ _ _ _ R _ _ Fa) as Hn. cbn [fst] in Hn. assert (NI : ~ In a (hd :: addrs ps)) by (intros I; apply (r_above _ _ _ _ R) in I; congruence).
  assert (Nd : forall b, b <> a -> nd (sv a v h) b = nd h b). { intros b NE. unfold nd, sv. rewrite Hn, nth_upd by (now apply nth_lt in Hn). now destruct (Nat.eqb_spec a b); [congruence|]. }
  destruct R as [Kp (k & w & Hd) Ce Cn Nn Ab Lvl He Ex Pvl Le Hh]; cbn [fst snd] in *. constructor; cbn [fst snd]; auto.
  - intros b x. unfold sv. rewrite Hn, nth_upd by (now apply nth_lt in Hn). destruct (Nat.eqb a b); auto.
  - exists k, w. rewrite Nd; auto. intros ->. apply NI. now left.
  - rewrite Forall_forall in *. intros c I. red. rewrite Nd; [now apply Ce|]. intros E. apply NI. right. rewrite <- E. now apply in_map.
  - intros i Li. apply (chain_frame h); auto. intros x _. apply nx_sv.
  - intros b I. destruct (Nat.eqb_spec a b) as [->|]; [contradiction|auto].
Qed.
Lemma Clear_all fr hd ps h l : rep fr hd ps (h, l) -> exists s', Clear (K := K) (V := V) (h, l) = (Ok tt, s') /\ rep fr hd [] s' /\ (forall a, a <> hd -> nth_error (fst s') a = nth_error h a).
Proof.
  clear SP SW Eq Gt impl lt gtk eqk. intros R. destruct (Clear_ok fr hd ps h l R) as (s' & E & R'). exists s'. split; auto. split; auto. revert E. unfold Clear.
  destruct R as [Kp (k & v & Hd) Ce Cn Nn Ab Lvl He Ex Pvl Le Hh]; cbn [fst snd] in *. rewrite bind_hget, Hh.
  destruct (nth_error h hd) as [n|] eqn:En; [|unfold nd in Hd; rewrite En in Hd; discriminate]. rewrite (bind_eq _ _ _ _ _ (pload_ok h _ _ _ En)).
  assert (Ll : length (n_next n) = skipListMaxLevel) by (unfold nd in Hd; rewrite En in Hd; cbn in Hd; now injection Hd). rewrite Ll.
  destruct (clear_loop_ok hd l Hh skipListMaxLevel 0 h) as (h' & E & D & Nd & Kp'); auto; [intros j Lj; exact (nd_nx _ _ _ _ _ _ Hd Lj)|lia|].
  rewrite (bind_eq _ _ _ _ _ E), bind_hmod. intros Es. injection Es as <-. intros a Na. cbn [fst].
  destruct (nth_error h a) as [x|] eqn:Ex'.
  - apply (Kp' (fun b => if Nat.eqb b hd then None else nth_error h b)); [intros b y; destruct (Nat.eqb b hd); [discriminate|auto]|now rewrite Nat.eqb_refl|]. destruct (Nat.eqb_spec a hd); [contradiction|auto].
  - specialize (Nd a). unfold nd in Nd. rewrite Ex' in Nd. destruct (nth_error h' a); [discriminate|auto].
Qed.

(** *** Calls *)
Lemma repair_ok f fr hd ps ps' e s s' m : XR f fr hd ps e s -> rep fr hd ps' s' -> same_shape ps' ps -> kvs ps' = m -> ksorted lt m -> XR f fr hd ps' (repair m e) s'.
Proof.
  intros X R Sh Ek Sm. pose proof (x_live _ _ _ _ _ _ X) as Lv. pose proof (x_addrs _ _ _ Lv) as Ad.
  assert (Ll : length (map fst (e_live e)) = length m). { rewrite <- Ek. unfold kvs. rewrite !map_length. apply (f_equal (@length _)) in Sh, Lv. rewrite !map_length in Sh, Lv. congruence. }
  assert (Ad' : addrs ps' = addrs ps). { apply (f_equal (map (fun x => fst (fst x)))) in Sh. rewrite !map_map in Sh. exact Sh. }
  assert (Ei : ids (repair m e) = ids e) by (unfold ids, repair; cbn; now rewrite map_fst_combine).
  constructor; cbn [repair e_live e_gone e_made]; auto; try rewrite Ei; try apply X.
  - transitivity (combine (addrs ps') (kvs ps')).
    { clear. induction ps' as [|c ps' IH]; cbn; auto. now rewrite IH. }
    rewrite Ad', Ad, Ek. symmetry. apply (map_combine_l f).
  - rewrite map_snd_combine; auto.
Qed.
Lemma x_fresh f fr hd ps e s a : XR f fr hd ps e s -> ~ In a (addrs ps) -> fr a = None -> forall i, (i < e_made e)%nat -> f i <> a.
Proof.
  intros X NI Fa i Li E. apply (x_ids _ _ _ _ _ _ X) in Li. unfold ids in Li. apply in_app_iff in Li as [I|I].
  - apply NI. rewrite (x_addrs _ _ _ (x_live _ _ _ _ _ _ X)), <- E. now apply in_map.
  - apply in_map_iff in I as (x & Ex & I). apply in_map_iff in I as (g & Eg & I). destruct (x_gone _ _ _ _ _ _ X g I) as (n & Fn & _). rewrite Eg, Ex in Fn. congruence.
Qed.
Lemma ff_ext f f' (l : list (nat * (K * V))) : (forall i, In i (map fst l) -> f' i = f i) -> map (ff f') l = map (ff f) l.
Proof. intros H. apply map_ext_in. intros x I. unfold ff. rewrite H; auto. now apply in_map. Qed.
Lemma insert_new_ok f fr hd A c B L R e s s' : XR f fr hd (A ++ B) e s -> rep fr hd (A ++ c :: B) s' -> e_live e = L ++ R -> map cc A = map (ff f) L -> map cc B = map (ff f) R ->
  ~ In (ca c) (hd :: addrs (A ++ B)) -> ksorted lt (kvs (A ++ c :: B)) ->
  let f' := fun i => if Nat.eqb i (e_made e) then ca c else f i in
  XR f' fr hd (A ++ c :: B) (mkE (L ++ (e_made e, (ck c, cv c)) :: R) (e_gone e) (S (e_made e))) s' /\ forall i, (i < e_made e)%nat -> f' i = f i.
Proof.
  clear SP Eq Gt. intros X R' El EA EB NI Sk f'. assert (Ef : forall i, (i < e_made e)%nat -> f' i = f i) by (intros i Li; unfold f'; destruct (Nat.eqb_spec i (e_made e)); [lia|auto]). split; auto.
  assert (Fa : fr (ca c) = None) by (apply (r_above _ _ _ _ R'); right; rewrite addrs_app; apply in_app_iff; right; now left).
  pose proof (x_fresh _ _ _ _ _ _ (ca c) X ltac:(intros I; apply NI; now right) Fa) as Fr. pose proof (x_ids _ _ _ _ _ _ X) as Id.
  assert (EfL : map (ff f') L = map (ff f) L) by (apply ff_ext; intros i I; apply Ef, Id; unfold ids; rewrite El, map_app; apply in_app_iff; left; apply in_app_iff; now left).
  assert (EfR : map (ff f') R = map (ff f) R) by (apply ff_ext; intros i I; apply Ef, Id; unfold ids; rewrite El, map_app; apply in_app_iff; left; apply in_app_iff; now right).
  assert (Eids : ids (mkE (L ++ (e_made e, (ck c, cv c)) :: R) (e_gone e) (S (e_made e))) = map fst L ++ e_made e :: map fst R ++ map fst (map fst (e_gone e))) by (unfold ids; cbn; rewrite map_app, <- app_assoc; reflexivity).
  assert (Eids0 : ids e = map fst L ++ map fst R ++ map fst (map fst (e_gone e))) by (unfold ids; rewrite El, map_app, <- app_assoc; reflexivity).
  assert (Em : f' (e_made e) = ca c) by (unfold f'; now rewrite Nat.eqb_refl).
  constructor; cbn [e_live e_gone e_made].
  - exact R'.
  - rewrite !map_app. cbn [map]. rewrite EA, EB, EfL, EfR. replace (ff f' (e_made e, (ck c, cv c))) with (cc c) by (unfold cc, ff; cbn [fst snd]; now rewrite Em). reflexivity.
  - replace (map snd _) with (kvs (A ++ c :: B)); auto. rewrite kvs_app, map_app. cbn [kvs map]. f_equal; [|f_equal].
    + apply (f_equal (map snd)) in EA. rewrite !map_map in EA. exact EA.
    + apply (f_equal (map snd)) in EB. rewrite !map_map in EB. exact EB.
  - intros i j Li Lj. unfold f'. destruct (Nat.eqb_spec i (e_made e)) as [->|Ni], (Nat.eqb_spec j (e_made e)) as [->|Nj]; auto.
    + intros E. exfalso. apply (Fr j); [lia|auto].
    + intros E. exfalso. apply (Fr i); [lia|auto].
    + apply (x_inj _ _ _ _ _ _ X); lia.
  - intros i. rewrite Eids, in_app_iff. cbn [In]. rewrite <- or_comm, or_assoc, (or_comm (In i (map fst R ++ _))), <- in_app_iff. rewrite <- Eids0, <- Id. lia.
  - rewrite Eids. pose proof (x_nodup _ _ _ _ _ _ X) as ND. rewrite Eids0 in ND. apply NoDup_Add with (a := e_made e) (l := map fst L ++ map fst R ++ map fst (map fst (e_gone e))); [apply Add_app|]. split; auto. rewrite <- Eids0, <- Id. lia.
  - intros g I. destruct (x_gone _ _ _ _ _ _ X g I) as (n & Fn & Kv & Nx & Bd). exists n.
    rewrite Ef. 2:{ apply Id. unfold ids. apply in_app_iff. right. now apply in_map, in_map. }
    split; auto. split; auto. split; [|intros j Ej; specialize (Bd j Ej); lia]. rewrite Nx. f_equal. destruct (snd g) as [j|] eqn:Ej; auto. cbn. rewrite Ef; auto.
Qed.
(** The elements G leave: their nodes join the frame as they are. *)
Lemma remove_ok f fr hd A c B L p R i e h h' l l' : XR f fr hd (A ++ c :: B) e (h, l) -> rep fr hd (A ++ B) (h', l') -> e_live e = L ++ (i, p) :: R -> map cc A = map (ff f) L -> map cc B = map (ff f) R -> ca c = f i -> (ck c, cv c) = p ->
  nd h' (ca c) = nd h (ca c) -> nx h' (ca c) 0 = Some (firstp B) ->
  exists fr', XR f fr' hd (A ++ B) (mkE (L ++ R) (((i, p), first_id R) :: e_gone e) (e_made e)) (h', l').
Proof.
  clear SP Eq Gt. intros X R' El EA EB Ea Ep Nd Nx. exists (fun a => if Nat.eqb a (ca c) then nth_error h' (ca c) else fr a). pose proof (x_ids _ _ _ _ _ _ X) as Id. pose proof (x_nodup _ _ _ _ _ _ X) as ND.
  pose proof (r_nodup _ _ _ _ (x_rep _ _ _ _ _ _ X)) as NDa.
  assert (NIa : ~ In (ca c) (hd :: addrs (A ++ B))).
  { rewrite addrs_app in NDa. change (NoDup ((hd :: addrs A) ++ ca c :: addrs B)) in NDa. apply NoDup_remove_2 in NDa. rewrite addrs_app. exact NDa. }
  assert (Eids0 : ids e = map fst L ++ i :: map fst R ++ map fst (map fst (e_gone e))) by (unfold ids; rewrite El, map_app, <- app_assoc; reflexivity).
  assert (Eids : ids (mkE (L ++ R) ((i, p, first_id R) :: e_gone e) (e_made e)) = (map fst L ++ map fst R) ++ i :: map fst (map fst (e_gone e))) by (unfold ids; cbn; now rewrite map_app).
  assert (Pm : forall x, In x (ids (mkE (L ++ R) ((i, p, first_id R) :: e_gone e) (e_made e))) <-> In x (ids e)). { intros x. rewrite Eids, Eids0, !in_app_iff. cbn [In]. rewrite !in_app_iff. tauto. }
  rewrite Eids0 in ND. pose proof (NoDup_remove_1 _ _ _ ND) as ND1. pose proof (NoDup_remove_2 _ _ _ ND) as ND2. rewrite app_assoc in ND1, ND2.
  assert (Li : (i < e_made e)%nat) by (apply Id; rewrite Eids0; apply in_app_iff; right; now left).
  constructor; cbn [e_live e_gone e_made].
  - apply (rep_reframe fr); auto.
    + intros a n. destruct (Nat.eqb_spec a (ca c)) as [->|]; auto. apply (r_keeps _ _ _ _ R').
    + intros a I. destruct (Nat.eqb_spec a (ca c)) as [->|]; [contradiction|]. now apply (r_above _ _ _ _ R').
  - now rewrite !map_app, EA, EB.
  - pose proof (x_sorted _ _ _ _ _ _ X) as S. rewrite El, map_app in S. rewrite map_app. cbn in S. apply SS_app_inv in S as (S1 & S2 & S3). inversion S2; subst. apply SS_app; auto. eapply Forall_imp; [|exact S3]. intros q F. now inversion F.
  - apply (x_inj _ _ _ _ _ _ X).
  - intros x. rewrite Pm. apply Id.
  - rewrite Eids. apply NoDup_Add with (a := i) (l := (map fst L ++ map fst R) ++ map fst (map fst (e_gone e))); [apply Add_app|]. auto.
  - intros g [<-|I]; cbn [fst snd].
    + rewrite <- Ea, Nat.eqb_refl. pose proof (rep_cell _ _ _ _ _ c (x_rep _ _ _ _ _ _ X) ltac:(apply in_app_iff; right; now left)) as Nc. rewrite Nc in Nd. unfold nd, nx in Nd, Nx. destruct (nth_error h' (ca c)) as [n|]; [|discriminate].
      cbn in Nd. injection Nd as Nk Nv _. exists n. split; auto. split; [now rewrite Nk, Nv|]. split; [rewrite Nx; f_equal; now apply cc_first|]. intros j Ej. destruct R as [|x R]; [discriminate|]. injection Ej as <-. apply Id. rewrite Eids0. apply in_app_iff. right. right. now left.
    + destruct (x_gone _ _ _ _ _ _ X g I) as (n & Fn & Kv & Nx' & Bd). exists n. split; auto. destruct (Nat.eqb_spec (f (fst (fst g))) (ca c)) as [E|]; auto. exfalso. rewrite Ea in E. apply (x_inj _ _ _ _ _ _ X) in E; auto.
      * apply ND2. rewrite in_app_iff. right. rewrite <- E. now apply in_map, in_map.
      * apply Id. unfold ids. apply in_app_iff. right. now apply in_map, in_map.
Qed.
Lemma clear_ok f fr hd ps e h l : XR f fr hd ps e (h, l) -> exists fr' s', Clear (K := K) (V := V) (h, l) = (Ok tt, s') /\ XR f fr' hd [] (retire (fun _ => true) e) s'.
Proof.
  clear SP Eq Gt. intros X. destruct (Clear_all _ _ _ _ _ (x_rep _ _ _ _ _ _ X)) as (s' & E & R' & Sm). exists (fun a => if existsb (Nat.eqb a) (addrs ps) then nth_error (fst s') a else fr a), s'. split; auto.
  pose proof (x_ids _ _ _ _ _ _ X) as Id. pose proof (r_nodup _ _ _ _ (x_rep _ _ _ _ _ _ X)) as NDa. apply NoDup_cons_iff in NDa as [NIh _].
  assert (Hin : forall a, existsb (Nat.eqb a) (addrs ps) = true <-> In a (addrs ps)). { intros a. rewrite existsb_exists. split; [intros (b & I & Eb); apply Nat.eqb_eq in Eb; now subst|intros I; exists a; split; auto; apply Nat.eqb_refl]. }
  unfold retire. destruct (leaving_all (e_live e)) as [E1 E2].
  assert (Eids : ids (mkE (filter (fun _ => negb true) (e_live e)) (leaving (fun _ => true) (e_live e) ++ e_gone e) (e_made e)) = ids e) by (unfold ids; cbn [e_live e_gone]; rewrite E2, !map_app, E1; reflexivity).
  constructor; cbn [e_live e_gone e_made].
  - apply (rep_reframe fr); auto.
    + intros a n. destruct (existsb (Nat.eqb a) (addrs ps)); auto. apply (r_keeps _ _ _ _ R').
    + intros a [<-|[]]. destruct (existsb (Nat.eqb hd) (addrs ps)) eqn:Eh; [apply Hin in Eh; contradiction|]. apply (r_above _ _ _ _ R'). now left.
  - now rewrite E2.
  - rewrite E2. constructor.
  - apply (x_inj _ _ _ _ _ _ X).
  - intros i. rewrite Eids. apply Id.
  - rewrite Eids. apply (x_nodup _ _ _ _ _ _ X).
  - intros [[i p] n] I. cbn [fst snd]. apply in_app_iff in I as [I|I].
    + apply leaving_all_in in I as (L & R & El & ->). assert (Li : (i < e_made e)%nat) by (apply Id; unfold ids; rewrite El, map_app; apply in_app_iff; left; apply in_app_iff; right; now left).
      pose proof (x_live _ _ _ _ _ _ X) as Lv. rewrite El in Lv. apply cc_split in Lv as (A & B' & Ep & EA & EB). apply cc_cons in EB as (c & B & -> & Ea & Ec & EB).
      assert (Ia : In (f i) (addrs ps)) by (rewrite Ep, addrs_app; apply in_app_iff; right; now left). pose proof (proj2 (Hin _) Ia) as ->. rewrite Sm by (intros Ei; apply NIh; now rewrite <- Ei).
      destruct (id_node _ _ _ _ _ _ _ i X Li) as (p' & q' & n' & Ep' & Eq' & Nd & Nx & Bd). assert (In (i, p) (e_live e ++ map fst (e_gone e))) as I by (rewrite El; apply in_app_iff; left; apply in_app_iff; right; now left).
      unfold pair_of in Ep'. rewrite (find_id_in _ i p) in Ep'; auto. 2:{ pose proof (x_nodup _ _ _ _ _ _ X) as ND. unfold ids in ND. now rewrite map_app. } injection Ep' as <-.
      assert (Nn : q' = first_id R). { unfold next_of in Eq'. rewrite El, behind_mid in Eq'; [now injection Eq'|]. pose proof (x_nodup _ _ _ _ _ _ X) as ND. unfold ids in ND. rewrite El, map_app in ND. cbn in ND. rewrite <- app_assoc in ND. cbn in ND. apply NoDup_remove_2 in ND. intros I2. apply ND. apply in_app_iff. now left. }
      subst q'. unfold nd, nx in Nd, Nx. destruct (nth_error h (f i)) as [nn|]; [|discriminate]. cbn in Nd. injection Nd as Nk Nv _. exists nn. split; auto. split; [rewrite Nk, Nv; now destruct p|]. auto.
    + destruct (x_gone _ _ _ _ _ _ X _ I) as (nn & Fn & Kv & Nx & Bd). cbn [fst snd] in *. exists nn. split; auto. destruct (existsb (Nat.eqb (f i)) (addrs ps)) eqn:Eh; auto. apply Hin in Eh. exfalso; ( assert (fr (f i) = None) by (apply (r_above _ _ _ _ (x_rep _ _ _ _ _ _ X)); now right); congruence).
Qed.

Let any := fun _ : K => true.
Let any_ok (m : list (K * V)) : Forall (fun p => any (fst p) = true) m.
Proof. apply Forall_forall. auto. Qed.
Lemma x_cells {St} fr hd ps s (o : mop K V St) : rep fr hd ps s -> ksorted lt (kvs ps) -> exists ps',
  fst (map_step impl o s) = fst (map_spec lt o (kvs ps)) /\ kvs ps' = snd (map_spec lt o (kvs ps)) /\ rep fr hd ps' (snd (map_step impl o s)) /\ ksorted lt (kvs ps') /\ (keeps_shape o = true -> same_shape ps' ps).
Proof using SP SW Eq Gt any.
  intros R S. destruct (step_cells eqk gtk impl SP lt SW any (fun a b _ _ => Eq a b) (fun a b _ _ => Gt a b) fr hd ps s o R (any_ok _) ltac:(now destruct o) S) as (ps' & H1 & H2 & H3 & H4 & H5 & H6). exists ps'. auto.
Qed.
Lemma call_ok {St} f fr hd ps e s (o : mop K V St) : XR f fr hd ps e s -> exists f' fr' ps',
  fst (map_step impl o s) = fst (map_spec lt o (map snd (e_live e))) /\ XR f' fr' hd ps' (calls lt o e) (snd (map_step impl o s)) /\ (forall i, (i < e_made e)%nat -> f' i = f i) /\ (e_made e <= e_made (calls lt o e))%nat.
Proof using SP SW Eq Gt any.
  intros X. pose proof (x_rep _ _ _ _ _ _ X) as R. pose proof (x_live _ _ _ _ _ _ X) as Lv. pose proof (x_kvs _ _ _ Lv) as Ek. pose proof (x_sorted _ _ _ _ _ _ X) as S. rewrite <- Ek in S |- *.
  assert (Shape : keeps_shape o = true -> calls lt o e = repair (snd (map_spec lt o (kvs ps))) e -> exists f' fr' ps', fst (map_step impl o s) = fst (map_spec lt o (kvs ps)) /\ XR f' fr' hd ps' (calls lt o e) (snd (map_step impl o s)) /\
    (forall i, (i < e_made e)%nat -> f' i = f i) /\ (e_made e <= e_made (calls lt o e))%nat).
  { intros Ks Ec. destruct (x_cells fr hd ps s o R S) as (ps' & H1 & H2 & H3 & H4 & H5). exists f, fr, ps'. split; auto. rewrite Ec. split; [|auto]. apply (repair_ok f fr hd ps ps' e s); auto. now rewrite <- H2. }
  destruct o; try (apply Shape; [reflexivity|unfold calls; now rewrite Ek]); clear Shape; destruct s as [h l]; cbn [map_step map_spec fst snd]; unfold show.
  - (* Insert *) unfold calls. rewrite <- Ek. destruct (Insert_ok eqk gtk impl SP fr hd ps h l k v r R) as [(c & h' & l' & I & Hc & E & R')|(A & c & B & h' & l' & -> & Pt & Ekc & Evc & _ & NI & E & R')]; rewrite E; cbn [fst snd omap].
    + rewrite Eq in Hc. assert (has lt k (kvs ps) = true) as Hh. { apply existsb_exists. exists (ck c, cv c). split; auto. now apply (in_map (fun c => (ck c, cv c))). } rewrite Hh.
      exists f, fr, (put (ca c) v ps). split; auto. split; [|auto]. apply (repair_ok f fr hd ps _ e (h, l)); auto; [apply put_shape| |].
      * unfold insert. rewrite Hh. destruct (in_split _ _ I) as (A & B & ->). destruct (found_pos lt SW k A c B S Hc) as (H1 & H2 & H3). rewrite put_mid by (eapply rep_nodup; eauto). change (c :: B) with ([c] ++ B). rewrite !kvs_app, (pos_set lt k _ _ _ H1 H2 H3). reflexivity.
      * unfold insert. rewrite Hh. now apply ksorted_set.
    + destruct (parts_pos eqk gtk lt SW any (fun a b _ _ => Eq a b) (fun a b _ _ => Gt a b) k A B (any_ok _) eq_refl S Pt) as [H1 H3].
      pose proof (pos_has lt k (kvs A) [] (kvs B) H1 ltac:(constructor) H3) as Hh. cbn [app] in Hh. rewrite kvs_app, Hh. destruct (cc_split2 _ _ _ _ Lv) as (L & Rr & El & EA & EB).
      assert (ksorted lt (kvs (A ++ c :: B))) as Sk.
      { rewrite kvs_app in *. apply SS_app_inv in S as (S1 & S2 & S3). apply SS_app; auto.
        * cbn [kvs map]. constructor; auto. rewrite Ekc. exact H3.
        * rewrite Forall_forall in S3, H1 |- *. intros p Ip. constructor; [cbn; rewrite Ekc; now apply H1|now apply S3]. }
      destruct (insert_new_ok f fr hd A c B L Rr e (h, l) (h', l') X R' El EA EB NI Sk) as [X' Ef]. eexists _, fr, (A ++ c :: B). split; [reflexivity|]. split; [|split; [exact Ef|cbn; lia]].
      rewrite <- Ekc, <- Evc. rewrite El, !filter_app. rewrite Ekc.
      rewrite (filter_all (fun e0 : nat * (K * V) => lt (fst (snd e0)) k) L), (filter_none (fun e0 : nat * (K * V) => lt (fst (snd e0)) k) Rr), (filter_none (fun e0 : nat * (K * V) => lt k (fst (snd e0))) L), (filter_all (fun e0 : nat * (K * V) => lt k (fst (snd e0))) Rr), app_nil_r; cbn [app]; [rewrite <- Ekc; exact X'| | | |].
      * exact (cc_forall f (fun p => lt k (fst p)) true B Rr EB H3).
      * apply (cc_forall f (fun p => lt k (fst p)) false A L EA). eapply Forall_imp; [|exact H1]. intros p H. now apply (lt_asym lt SW).
      * apply (cc_forall f (fun p => lt (fst p) k) false B Rr EB). eapply Forall_imp; [|exact H3]. intros p H. now apply (lt_asym lt SW).
      * exact (cc_forall f (fun p => lt (fst p) k) true A L EA H1).
  - (* Remove *) unfold calls. destruct (Remove_ok eqk gtk impl SP fr hd ps h l k R) as (A & B & h' & l' & -> & Rp & Nd & H).
    destruct (remove_parts_pos eqk gtk lt SW any (fun a b _ _ => Eq a b) (fun a b _ _ => Gt a b) k A B (any_ok _) eq_refl S Rp) as [H1 H2].
    assert (Keep : above k (kvs B) -> Remove impl k (h, l) = (Ok false, (h', l')) -> rep fr hd (A ++ B) (h', l') -> exists f' fr' ps', fst (let '(o, s') := Remove impl k (h, l) in (omap (MBool (K := K) (V := V) (St := St)) o, s')) = Ok (MBool (has lt k (kvs (A ++ B)))) /\
      XR f' fr' hd ps' (retire (fun p => eqv lt (fst p) k) e) (snd (let '(o, s') := Remove impl k (h, l) in (omap (MBool (K := K) (V := V) (St := St)) o, s'))) /\ (forall i, (i < e_made e)%nat -> f' i = f i) /\ (e_made e <= e_made (retire (fun p => eqv lt (fst p) k) e))%nat).
    { intros H3 E R'. rewrite E. cbn [fst snd omap]. exists f, fr, (A ++ B). pose proof (pos_has lt k (kvs A) [] (kvs B) H1 ltac:(constructor) H3) as Hh. cbn [app] in Hh. rewrite kvs_app, Hh. split; auto. split; [|auto].
      unfold retire. destruct (leaving_none (fun p => eqv lt (fst p) k) (e_live e)) as [-> ->].
      - apply (cc_forall f (fun p => eqv lt (fst p) k) false (A ++ B)); auto. rewrite kvs_app. apply Forall_app. split; [eapply Forall_imp; [|exact H1]; intros p Hp; now apply eqv_false_l|eapply Forall_imp; [|exact H3]; intros p Hp; now apply eqv_false_r].
      - destruct X. constructor; auto. }
    destruct B as [|c B]; [destruct H; apply Keep; auto; constructor|]. destruct (eqk (ck c) k) eqn:Ekk; [|destruct H; apply Keep; auto]. clear Keep. destruct H as (E & R' & Nx). destruct H2 as [H2 H3]. rewrite E. cbn [fst snd omap].
    destruct (cc_split2 _ _ _ _ Lv) as (L & Rr & El & EA & EB). apply cc_cons2 in EB as (i & R2 & -> & Ea & EB).
    destruct (remove_ok f fr hd A c B L (ck c, cv c) R2 i e h h' l l' X R' El EA EB Ea eq_refl (Nd _) Nx) as (fr' & X'). exists f, fr', (A ++ B).
    change (c :: B) with ([c] ++ B). rewrite !kvs_app, (pos_has lt k _ _ _ H1 H2 H3). split; auto. split; [|auto]. unfold retire. rewrite El. destruct (leaving_mid (fun p => eqv lt (fst p) k) L (i, (ck c, cv c)) R2) as [-> ->].
    + apply (cc_forall f (fun p => eqv lt (fst p) k) false A); auto. eapply Forall_imp; [|exact H1]. intros p Hp. now apply eqv_false_l.
    + cbn. now rewrite <- Eq.
    + apply (cc_forall f (fun p => eqv lt (fst p) k) false B); auto. eapply Forall_imp; [|exact H3]. intros p Hp. now apply eqv_false_r.
    + exact X'.
  - (* Clear *) destruct (clear_ok f fr hd ps e h l X) as (fr' & s' & E & X'). rewrite E. cbn [fst snd omap]. exists f, fr', []. split; auto.
Qed.

(** *** Variables *)
Definition tr f (x : xvar) : iter := (option_map f (fst x), option_map f (snd x)).
Definition okid (n : nat) (x : option nat) : Prop := forall i, x = Some i -> (i < n)%nat.
Definition okv (n : nat) (x : xvar) : Prop := okid n (fst x) /\ okid n (snd x).
Definition XRel (st : estate * list xvar) (cst : (heap * sklist) * list iter) : Prop :=
  exists f fr hd ps, XR f fr hd ps (fst st) (fst cst) /\ snd cst = map (tr f) (snd st) /\ Forall (okv (e_made (fst st))) (snd st).
Lemma tr_ext f f' n x : okv n x -> (forall i, (i < n)%nat -> f' i = f i) -> tr f' x = tr f x.
Proof. intros [H1 H2] E. unfold tr. destruct x as [[i|] [j|]]; cbn in *; rewrite ?(E i), ?(E j); auto. Qed.
Lemma okid_mono n m x : (n <= m)%nat -> okid n x -> okid m x.
Proof. intros L H i E. specialize (H i E). lia. Qed.
Lemma okid_first f fr hd ps e s l : XR f fr hd ps e s -> incl l (e_live e) -> okid (e_made e) (first_id l).
Proof.
  intros X I i E. destruct l as [|x l]; [discriminate|]. injection E as <-. apply (x_ids _ _ _ _ _ _ X). unfold ids. apply in_app_iff. left. apply in_map, I. now left.
Qed.
Lemma okid_none n : okid n None.
Proof. intros i E. discriminate. Qed.
Lemma declare_ok {St} f fr hd ps e vars (s : heap * sklist) (p : P (slnode K V) sklist iter) it : XR f fr hd ps e s -> Forall (okv (e_made e)) vars -> p s = (Ok (tr f it), s) -> okv (e_made e) it ->
  fst (bind_var (St := St) p (s, map (tr f) vars)) = fst (declare (St := St) it (e, vars)) /\ XRel (snd (declare (St := St) it (e, vars))) (snd (bind_var (St := St) p (s, map (tr f) vars))).
Proof.
  intros X F E Ok. unfold bind_var. cbn [fst snd]. rewrite E. cbn. split; auto. exists f, fr, hd, ps. split; auto. cbn. rewrite map_app. split; auto. apply Forall_app. auto.
Qed.
Lemma same_id_ok f fr hd ps e s a b : XR f fr hd ps e s -> okid (e_made e) a -> okid (e_made e) b -> peqb (option_map f a) (option_map f b) = same_id a b.
Proof.
  intros X Ha Hb. destruct a as [i|], b as [j|]; cbn; auto. destruct (Nat.eqb_spec i j) as [->|N]; [apply Nat.eqb_refl|]. apply Nat.eqb_neq. intros E. apply N. apply (x_inj _ _ _ _ _ _ X); auto.
Qed.
Lemma nth_upd_map {T U} (g : T -> U) x y (l : list T) : map g (upd x y l) = upd x (g y) (map g l).
Proof. revert x. induction l as [|z l IH]; intros [|x]; cbn; auto. now rewrite IH. Qed.
Lemma Forall_upd {T} (P : T -> Prop) x y (l : list T) : Forall P l -> P y -> Forall P (upd x y l).
Proof. intros F Hy. revert x. induction F as [|z l Hz F IH]; intros [|x]; cbn; auto. Qed.
Lemma x_store f fr hd ps e h l i v : XR f fr hd ps e (h, l) -> (i < e_made e)%nat -> exists fr' ps', st_value (Some (f i)) v (h, l) = (Ok tt, (sv (f i) v h, l)) /\ XR f fr' hd ps' (store i v e) (sv (f i) v h, l).
Proof.
  clear SP Eq Gt. intros X Li. destruct (id_node _ _ _ _ _ _ _ i X Li) as (p & q & n & _ & _ & Nd & _). pose proof (x_ids _ _ _ _ _ _ X) as Id. pose proof (x_nodup _ _ _ _ _ _ X) as ND.
  assert (Eids : ids (store i v e) = ids e). { unfold ids, store. cbn [e_live e_gone]. rewrite write_ids. f_equal. rewrite !map_map. apply map_ext. intros g. cbn. unfold write. now destruct (Nat.eqb (fst (fst g)) i). }
  destruct (id_cases _ _ _ _ _ _ _ i X Li) as [(L & p' & R & A & c & B & El & Ep & Ea & Ec & EA & EB & NI)|(p' & q' & I & NI)].
  - exists fr, (A ++ set_cv v c :: B). split; [apply (st_value_ok _ _ _ _ _ Nd)|]. subst ps.
    assert (NG : forall g, In g (e_gone e) -> fst (fst g) <> i). { intros g Ig E. unfold ids in ND. rewrite El, map_app, <- app_assoc in ND. cbn in ND. apply NoDup_remove_2 in ND. apply ND. apply in_app_iff. right. apply in_app_iff. right. rewrite <- E. now apply in_map, in_map. }
    assert (EG : map (fun g => (write i v (fst g), snd g)) (e_gone e) = e_gone e). { rewrite <- (map_id (e_gone e)) at 2. apply map_ext_in. intros g Ig. unfold write. destruct (Nat.eqb_spec (fst (fst g)) i) as [E|]; [now apply NG in E|]. now destruct g. }
    assert (EW : map (write i v) (e_live e) = L ++ (i, (fst p', v)) :: R). { rewrite El. apply write_mid. rewrite <- El. unfold ids in ND. now apply NoDup_app_l in ND. }
    constructor; try rewrite Eids; cbn [store e_live e_gone e_made]; try rewrite EW; try rewrite EG; try apply X.
    + rewrite <- Ea. apply set_mid. apply (x_rep _ _ _ _ _ _ X).
    + rewrite !map_app. cbn [map]. rewrite EA, EB. f_equal. f_equal. unfold cc, ff. cbn. rewrite <- Ec, Ea. reflexivity.
    + pose proof (x_sorted _ _ _ _ _ _ X) as S. apply (ksorted_keys lt (map snd (e_live e))); auto. rewrite El, !map_app. reflexivity.
  - destruct (x_gone _ _ _ _ _ _ X _ I) as (nn & Fn & Kv & Nx & Bd). cbn [fst snd] in *. eexists _, ps. split; [apply (st_value_ok _ _ _ _ _ Nd)|].
    constructor; try rewrite Eids; cbn [store e_live e_gone e_made]; try rewrite (write_other i v (e_live e) NI); try apply X.
    + apply (rep_outside fr hd ps h l (f i) v nn); auto. apply (x_rep _ _ _ _ _ _ X).
    + intros g Ig. apply in_map_iff in Ig as (g0 & <- & Ig). cbn [fst snd]. destruct (x_gone _ _ _ _ _ _ X _ Ig) as (n0 & Fn0 & Kv0 & Nx0 & Bd0). unfold write. destruct (Nat.eqb_spec (fst (fst g0)) i) as [E|NE]; cbn [fst snd].
      * rewrite E, Nat.eqb_refl. rewrite E, Fn in Fn0. injection Fn0 as <-. eexists. split; [reflexivity|]. cbn. rewrite <- Kv0. auto.
      * destruct (Nat.eqb_spec (f i) (f (fst (fst g0)))) as [E|]; [exfalso; apply NE; apply (x_inj _ _ _ _ _ _ X); auto|eauto].
        apply Id. unfold ids. apply in_app_iff. right. now apply in_map, in_map.
Qed.

Lemma x_step_ok {St} st cst (o : xop K V St) : XRel st cst -> fst (x_step impl o cst) = fst (x_spec lt o st) /\ XRel (snd (x_spec lt o st)) (snd (x_step impl o cst)).
Proof using SP SW Eq Gt any.
  destruct st as [e vars], cst as [[h l] cvars]. intros XX. assert (XX' := XX). destruct XX' as (f & fr & hd & ps & X & Ev & F). cbn [fst snd] in *.
  pose proof (x_rep _ _ _ _ _ _ X) as R. pose proof (x_live _ _ _ _ _ _ X) as Lv. pose proof (x_kvs _ _ _ Lv) as Ek. pose proof (x_sorted _ _ _ _ _ _ X) as S. rewrite <- Ek in S.
  assert (Low : forall k, exists A M B, ps = A ++ M ++ B /\ below k (kvs A) /\ same k (kvs M) /\ above k (kvs B) /\ lowerBound impl k (h, l) = (Ok (option_map f (first_id (filter (fun y => negb (lt (fst (snd y)) k)) (e_live e)))), (h, l))).
  { intros k. destruct (lower_pos eqk gtk impl SP lt SW Eq Gt fr hd ps h l k R S) as (A & M & B & -> & H1 & H2 & H3 & E). exists A, M, B. repeat (split; [solve [auto]|]). rewrite E. f_equal. f_equal.
    destruct (cc_split2 _ _ _ _ Lv) as (L & Rr & El & EA & EB). rewrite (cc_first f _ Rr) by auto. f_equal. rewrite El. symmetry. apply (first_filter (fun p => negb (lt (fst p) k))).
    - apply (cc_forall f (fun p => negb (lt (fst p) k)) false A); auto. eapply Forall_imp; [|exact H1]. intros p Hp. cbn. now rewrite Hp.
    - destruct Rr as [|x Rr]; auto. assert (Fx : Forall (fun y => negb (lt (fst (snd y)) k) = true) (x :: Rr)); [|now inversion Fx]. apply (cc_forall f (fun p => negb (lt (fst p) k)) true (M ++ B)); auto. rewrite kvs_app. apply Forall_app. split.
      + eapply Forall_imp; [|exact H2]. intros p Hp. cbn. apply eqv_true in Hp as [-> _]. reflexivity.
      + eapply Forall_imp; [|exact H3]. intros p Hp. cbn. now rewrite (lt_asym lt SW _ _ Hp). }
  assert (Upp : forall k, upperBound impl k (h, l) = (Ok (option_map f (first_id (filter (fun y => lt k (fst (snd y))) (e_live e)))), (h, l))).
  { intros k. destruct (upper_pos eqk gtk impl SP lt SW Eq Gt fr hd ps h l k R S) as (A & M & B & -> & H1 & H2 & H3 & E). rewrite E. f_equal. f_equal. rewrite app_assoc in Lv.
    destruct (cc_split2 _ _ _ _ Lv) as (L & Rr & El & EA & EB). rewrite (cc_first f _ Rr) by auto. f_equal. rewrite El. symmetry. apply (first_filter (fun p => lt k (fst p))).
    - apply (cc_forall f (fun p => lt k (fst p)) false (A ++ M)); auto. rewrite kvs_app. apply Forall_app. split.
      + eapply Forall_imp; [|exact H1]. intros p Hp. now apply (lt_asym lt SW).
      + eapply Forall_imp; [|exact H2]. intros p Hp. cbn. apply eqv_true in Hp as [_ ->]. reflexivity.
    - destruct Rr as [|x Rr]; auto. assert (Fx : Forall (fun y => lt k (fst (snd y)) = true) (x :: Rr)); [|now inversion Fx]. apply (cc_forall f (fun p => lt k (fst p)) true B); auto. }
  assert (Fnd : forall k, findNode impl k (h, l) = (Ok (option_map f (first_id (filter (fun y => eqv lt (fst (snd y)) k) (e_live e)))), (h, l))).
  { intros k. destruct (find_pos eqk gtk impl SP lt SW Eq Gt fr hd ps h l k R S) as [(A & c & B & -> & H1 & H2 & H3 & E)|(A & B & -> & H1 & H3 & E)]; rewrite E; f_equal; f_equal; destruct (cc_split2 _ _ _ _ Lv) as (L & Rr & El & EA & EB); rewrite El.
    - apply cc_cons2 in EB as (i & R2 & -> & Ea & EB). rewrite (first_filter (fun p => eqv lt (fst p) k)); [cbn; now rewrite Ea| |].
      + apply (cc_forall f (fun p => eqv lt (fst p) k) false A); auto. eapply Forall_imp; [|exact H1]. intros p Hp. now apply eqv_false_l.
      + now inversion H2.
    - rewrite filter_none; auto. apply Forall_app. split.
      + apply (cc_forall f (fun p => eqv lt (fst p) k) false A); auto. eapply Forall_imp; [|exact H1]. intros p Hp. now apply eqv_false_l.
      + apply (cc_forall f (fun p => eqv lt (fst p) k) false B); auto. eapply Forall_imp; [|exact H3]. intros p Hp. now apply eqv_false_r. }
  assert (Fi : forall P, okid (e_made e) (first_id (filter P (e_live e)))) by (intros P; eapply okid_first; [exact X|]; intros x I; now apply filter_In in I).
  subst cvars.
  assert (Use : forall x, nth_error (map (tr f) vars) x = option_map (tr f) (nth_error vars x)) by (intros x; apply nth_error_map).
  assert (Uok : forall x it, nth_error vars x = Some it -> okv (e_made e) it) by (intros x it E; rewrite Forall_forall in F; eapply F, nth_error_In; eauto).
  destruct o; cbn [x_step x_spec fst snd].
  - destruct (call_ok f fr hd ps e (h, l) o X) as (f' & fr' & ps' & E & X' & Ef & Lm). destruct (map_step impl o (h, l)) as [r s']. cbn [fst snd] in *. rewrite E. split; auto. exists f', fr', hd, ps'. cbn [fst snd]. split; auto. split.
    + apply map_ext_in. intros x I. symmetry. apply (tr_ext f f' (e_made e)); auto. rewrite Forall_forall in F. auto.
    + eapply Forall_imp; [|exact F]. intros x [H1 H2]. split; eapply okid_mono; eauto.
  - eapply declare_ok; eauto.
    + rewrite (iterate_ok fr hd ps h l R). unfold tr. cbn. now rewrite (cc_first f ps (e_live e)).
    + split; [eapply okid_first; [exact X|apply incl_refl]|apply okid_none].
  - eapply declare_ok; eauto; [|split; [apply Fi|apply okid_none]]. unfold LowerBound. destruct (Low k) as (_ & _ & _ & _ & _ & _ & _ & E). now rewrite (bind_eq _ _ _ _ _ E).
  - eapply declare_ok; eauto; [|split; [apply Fi|apply okid_none]]. unfold UpperBound. now rewrite (bind_eq _ _ _ _ _ (Upp k)).
  - eapply declare_ok; eauto; [|split; apply Fi]. unfold FindRange. destruct (Low first) as (_ & _ & _ & _ & _ & _ & _ & E). now rewrite (bind_eq _ _ _ _ _ E), (bind_eq _ _ _ _ _ (Upp last)).
  - eapply declare_ok; eauto; [|split; [apply Fi|apply okid_none]]. unfold Find, bind. rewrite Fnd. destruct (first_id _); reflexivity.
  - rewrite Use. destruct (nth_error vars x) as [[[i|] en]|] eqn:En; cbn [option_map]; [| |split; auto; exact XX].
    + destruct (Uok _ _ En) as [Oi _]. specialize (Oi i eq_refl). unfold at_element. cbn [fst]. apply (declare_ok f fr hd ps e vars (h, l)); auto; [|split; [intros j Ej; injection Ej as <-; exact Oi|apply okid_none]].
      destruct (id_node _ _ _ _ _ _ _ i X Oi) as (p & q & n & _ & _ & Nd & _). unfold Pointer, tr. cbn [fst snd option_map]. unfold nd in Nd. destruct (nth_error h (f i)) as [nn|] eqn:Hn; [|discriminate].
      unfold bind. now rewrite (pload_ok _ _ _ _ Hn).
    + cbn. split; auto.
  - rewrite Use. destruct (nth_error vars x) as [it|] eqn:En; cbn [option_map fst snd]; [|split; auto; exact XX]. split; [|exact XX]. destruct (Uok _ _ En) as [O1 O2]. unfold IsNotEnd, tr. cbn [fst snd]. now rewrite (same_id_ok _ _ _ _ _ _ _ _ X).
  - rewrite Use. destruct (nth_error vars x) as [[[i|] en]|] eqn:En; cbn [option_map]; [| |split; auto; exact XX].
    + destruct (Uok _ _ En) as [Oi Oe]. specialize (Oi i eq_refl). unfold at_element. cbn [fst snd]. destruct (id_node _ _ _ _ _ _ _ i X Oi) as (p & q & n & _ & Eq' & Nd & Nx & Bd). rewrite Eq'.
      unfold move_var, MoveToNext, tr. cbn [fst snd option_map]. rewrite (bind_eq _ _ _ _ _ (ld_next_ok _ _ _ _ _ Nx)). cbn. split; auto. exists f, fr, hd, ps. split; auto. cbn [fst snd]. split.
      * rewrite nth_upd_map. reflexivity.
      * apply Forall_upd; auto. split; auto.
    + cbn. split; auto.
  - rewrite Use. destruct (nth_error vars x) as [[[i|] en]|] eqn:En; cbn [option_map]; [| |split; auto; exact XX].
    + destruct (Uok _ _ En) as [Oi Oe]. specialize (Oi i eq_refl). unfold at_element. cbn [fst snd]. destruct (id_node _ _ _ _ _ _ _ i X Oi) as (p & q & n & Ep & _ & Nd & _). rewrite Ep.
      unfold with_vars, Key, tr. cbn [fst snd option_map]. rewrite (ld_key_ok _ _ _ _ _ _ Nd). cbn. split; auto.
    + cbn. split; auto.
  - rewrite Use. destruct (nth_error vars x) as [[[i|] en]|] eqn:En; cbn [option_map]; [| |split; auto; exact XX].
    + destruct (Uok _ _ En) as [Oi Oe]. specialize (Oi i eq_refl). unfold at_element. cbn [fst snd]. destruct (id_node _ _ _ _ _ _ _ i X Oi) as (p & q & n & Ep & _ & Nd & _). rewrite Ep.
      unfold with_vars, Value, tr. cbn [fst snd option_map]. rewrite (ld_value_ok _ _ _ _ _ _ Nd). cbn. split; auto.
    + cbn. split; auto.
  - rewrite Use. destruct (nth_error vars x) as [[[i|] en]|] eqn:En; cbn [option_map]; [| |split; auto; exact XX].
    + destruct (Uok _ _ En) as [Oi Oe]. specialize (Oi i eq_refl). unfold at_element. cbn [fst snd]. destruct (x_store _ _ _ _ _ _ _ i v X Oi) as (fr' & ps' & E & X').
      unfold with_vars, Pointer_store, tr. cbn [fst snd option_map]. rewrite E. cbn. split; auto. exists f, fr', hd, ps'. split; auto.
    + cbn. split; auto.
Qed.
Lemma x_run_ok {St} (ops : list (xop K V St)) st cst : XRel st cst -> fst (run (x_step impl) ops cst) = fst (run (x_spec lt) ops st) /\ XRel (snd (run (x_spec lt) ops st)) (snd (run (x_step impl) ops cst)).
Proof using SP SW Eq Gt any. apply run_sim. intros a s o. apply x_step_ok. Qed.
End Rel.
