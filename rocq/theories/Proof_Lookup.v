From Verif Require Import BaseLemmas Spec Spec_Lookup Model_Lookup Proof_Transform.

Section Lookup.
Context {T : Type}.
Implicit Types (ltb eqb : T -> T -> bool) (a b l : list T).

Lemma at_ok a i x : zget a i = Some x -> at_ a i = Ok x.
Proof. intros H. unfold at_. now rewrite H. Qed.

(** *** Min, Max *)
Lemma sw_nan ltb : strict_weak ltb -> ordered_nan ltb (fun (x y : T) => negb (ltb x y) && negb (ltb y x)) no_nan.
Proof.
  intros [H1 H2 H3]. constructor; intros; try discriminate; eauto.
Qed.
Lemma flip_nan ltb eqb isnan : ordered_nan ltb eqb isnan -> ordered_nan (fun (x y : T) => ltb y x) eqb isnan.
Proof.
  intros [A B C D E F]. constructor; intros; auto.
  - split; [apply B|apply A]; auto.
  - split; [apply A|apply B]; auto.
  - eapply D; eauto.
  - eapply E; eauto.
  - rewrite F by auto. apply andb_comm.
Qed.
Lemma flip_sw ltb : strict_weak ltb -> strict_weak (fun (x y : T) => ltb y x).
Proof. intros [H1 H2 H3]. constructor; intros; eauto. Qed.

Lemma nan_asym ltb eqb isnan : ordered_nan ltb eqb isnan -> forall x y, ltb x y = true -> ltb y x = false.
Proof.
  intros O x y H. destruct (ltb y x) eqn:E; auto. pose proof (on_trans _ _ _ O x y x H E). rewrite (on_irrefl _ _ _ O) in *. discriminate.
Qed.

Lemma in_snoc pre (x y : T) : In y (pre ++ [x]) <-> In y pre \/ y = x.
Proof. rewrite in_app_iff. simpl. intuition. Qed.

Lemma MaxN_loop_nan ltb eqb isnan (O : ordered_nan ltb eqb isnan) rest : forall pre fuel v,
  (length rest <= fuel)%nat -> isnan v = false -> first_max ltb isnan pre v ->
  exists m, MaxN_loop ltb fuel (pre ++ rest) (zlen pre) v = Ok m /\ isnan m = false /\ first_max ltb isnan (pre ++ rest) m.
Proof.
  induction rest as [|x rest IH]; intros pre fuel v Hf Hn Hv.
  - exists v. rewrite app_nil_r. destruct fuel; cbn [MaxN_loop]; destruct (Z.ltb_spec (zlen pre) (zlen pre)); try lia; auto.
  - destruct fuel as [|fuel]; [simpl in Hf; lia|]. cbn [MaxN_loop].
    pose proof (zlen_nonneg pre). pose proof (zlen_nonneg rest).
    assert (L : zlen pre < zlen (pre ++ x :: rest)) by (rewrite zlen_app, zlen_cons; lia).
    destruct (Z.ltb_spec (zlen pre) (zlen (pre ++ x :: rest))); [|lia].
    rewrite (at_ok _ _ x) by apply zget_mid. cbn [obind].
    rewrite snoc_assoc, <- zlen_snoc with (x := x). apply IH; [simpl in Hf; lia| |].
    + destruct (ltb v x) eqn:E; auto. destruct (isnan x) eqn:N; auto.
      destruct (on_nan_r _ _ _ O v x N). congruence.
    + destruct Hv as (i & G & M & F). destruct (ltb v x) eqn:E.
      * exists (zlen pre). split; [apply (zget_mid pre x [])|]. split.
        -- intros y Hy. apply in_snoc in Hy as [Hy| ->]; [|apply (on_irrefl _ _ _ O)].
           apply (on_negtrans _ _ _ O x v y); auto. eapply nan_asym; eauto.
        -- intros j y Hj Gy Ny. rewrite zget_app_l in Gy by auto.
           assert (K : ltb v y = false) by (apply M; apply in_zget; exists j; split; auto; eapply zget_Some_range; eauto).
           destruct (ltb y x) eqn:Eyx; auto.
           rewrite (on_negtrans _ _ _ O v y x) in E; auto; discriminate.
      * exists i. pose proof (zget_Some_range _ _ _ G). split; [now rewrite zget_app_l by lia|]. split.
        -- intros y Hy. apply in_snoc in Hy as [Hy| ->]; auto.
        -- intros j y Hj Gy. rewrite zget_app_l in Gy by lia. eauto.
Qed.

Lemma MaxN_loop_isnan ltb eqb isnan (O : ordered_nan ltb eqb isnan) v rest : forall pre fuel,
  (length rest <= fuel)%nat -> isnan v = true -> MaxN_loop ltb fuel (pre ++ rest) (zlen pre) v = Ok v.
Proof.
  induction rest as [|x rest IH]; intros pre fuel Hf Hn.
  - rewrite app_nil_r. destruct fuel; cbn [MaxN_loop]; destruct (Z.ltb_spec (zlen pre) (zlen pre)); try lia; auto.
  - destruct fuel as [|fuel]; [simpl in Hf; lia|]. cbn [MaxN_loop].
    pose proof (zlen_nonneg pre). pose proof (zlen_nonneg rest).
    assert (L : zlen pre < zlen (pre ++ x :: rest)) by (rewrite zlen_app, zlen_cons; lia).
    destruct (Z.ltb_spec (zlen pre) (zlen (pre ++ x :: rest))); [|lia].
    rewrite (at_ok _ _ x) by apply zget_mid. cbn [obind].
    rewrite (proj1 (on_nan_l _ _ _ O v x Hn)).
    rewrite snoc_assoc, <- zlen_snoc with (x := x). apply IH; auto. simpl in Hf; lia.
Qed.

Lemma MaxN_nan ltb eqb isnan (O : ordered_nan ltb eqb isnan) x l :
  if isnan x then MaxN ltb (x :: l) = Ok x
  else exists m, MaxN ltb (x :: l) = Ok m /\ isnan m = false /\ first_max ltb isnan (x :: l) m.
Proof.
  assert (E : MaxN ltb (x :: l) = MaxN_loop ltb (length (x :: l)) ([x] ++ l) (zlen [x]) x).
  { unfold MaxN. rewrite zlen_cons. pose proof (zlen_nonneg l). destruct (Z.eqb_spec (1 + zlen l) 0); [lia|]. reflexivity. }
  rewrite E. destruct (isnan x) eqn:N.
  - eapply MaxN_loop_isnan; eauto. simpl. lia.
  - apply (MaxN_loop_nan ltb eqb isnan O l [x] _ x); [simpl; lia|auto|].
    exists 0. split; [reflexivity|]. split.
    + intros y [->|[]]. apply (on_irrefl _ _ _ O).
    + intros j y Hj. rewrite zget_lt0 by auto. discriminate.
Qed.
Lemma MinN_flip ltb a : MinN ltb a = MaxN (fun x y => ltb y x) a.
Proof. reflexivity. Qed.
Lemma MinN_nan ltb eqb isnan (O : ordered_nan ltb eqb isnan) x l :
  if isnan x then MinN ltb (x :: l) = Ok x
  else exists m, MinN ltb (x :: l) = Ok m /\ isnan m = false /\ first_min ltb isnan (x :: l) m.
Proof.
  rewrite MinN_flip. exact (MaxN_nan _ eqb isnan (flip_nan _ _ _ O) x l).
Qed.
Lemma MinMaxN_loop_pair ltb fuel : forall a i mn mx,
  MinMaxN_loop ltb fuel a i mn mx =
  obind (MinN_loop ltb fuel a i mn) (fun m1 => obind (MaxN_loop ltb fuel a i mx) (fun m2 => Ok (m1, m2))).
Proof.
  induction fuel as [|f IH]; intros a i mn mx; cbn [MinN_loop MaxN_loop MinMaxN_loop].
  - destruct (i <? zlen a); auto.
  - destruct (i <? zlen a); auto. destruct (at_ a i); cbn [obind]; auto.
Qed.
Lemma MinMaxN_pair ltb a :
  MinMaxN ltb a = obind (MinN ltb a) (fun m1 => obind (MaxN ltb a) (fun m2 => Ok (m1, m2))).
Proof.
  unfold MinMaxN, MinN, MaxN. destruct (zlen a =? 0); auto. destruct (at_ a 0); cbn [obind]; auto. apply MinMaxN_loop_pair.
Qed.

(** *** Find *)
Lemma first_index_cons P x l r : first_index P l r -> P x = false -> first_index P (x :: l) (r + 1).
Proof.
  intros [(v & G & Pv) F] Px. pose proof (zget_Some_range _ _ _ G). split.
  - exists v. split; auto. rewrite zget_cons_S by lia. now replace (r + 1 - 1) with r by lia.
  - intros i w Hi Gw. destruct (Z.eq_dec i 0) as [->|N]; [injection Gw as <-; auto|].
    pose proof (zget_Some_range _ _ _ Gw). rewrite zget_cons_S in Gw by lia. eapply F; [|exact Gw]. lia.
Qed.
Lemma first_index_here P (x : T) l : P x = true -> first_index P (x :: l) 0.
Proof.
  intros H. split; [exists x; auto|]. intros i v Hi. rewrite zget_lt0 by auto. discriminate.
Qed.
Lemma Find_loop_ok eqb x a : forall i,
  (exists r, Find_loop eqb a i x = (i + r, true) /\ first_index (fun v => eqb v x) a r) \/
  (Find_loop eqb a i x = (-1, false) /\ forall v, In v a -> eqb v x = false).
Proof.
  induction a as [|v a IH]; intros i; simpl.
  - right. split; auto. intros _ [].
  - destruct (eqb v x) eqn:E.
    + left. exists 0. split; [f_equal; lia|now apply first_index_here].
    + destruct (IH (i + 1)) as [(r & E1 & F)|(E1 & F)].
      * left. exists (r + 1). split; [rewrite E1; f_equal; lia|now apply first_index_cons].
      * right. split; auto. intros w [->|Hw]; auto.
Qed.
Lemma Index_loop_Find eqb x a : forall i, Index_loop eqb a i x = fst (Find_loop eqb a i x).
Proof. induction a as [|v a IH]; intros i; simpl; auto. destruct (eqb v x); auto. Qed.

Lemma FindIf_loop_ok {St} (cond : St -> T -> bool * St) a : forall i st,
  (exists pre x rest st', a = pre ++ x :: rest /\ FindIf_loop cond a i st = (i + zlen pre, true, st') /\
     answers cond st (pre ++ [x]) (repeat false (length pre) ++ [true]) st') \/
  (exists st', FindIf_loop cond a i st = (-1, false, st') /\ answers cond st a (repeat false (length a)) st').
Proof.
  unfold answers. induction a as [|v a IH]; intros i st; simpl.
  - right. exists st. auto.
  - destruct (cond st v) as [[|] st1] eqn:E.
    + left. exists [], v, a, st1. split; [auto|]. simpl. rewrite E. split; auto. do 2 f_equal. unfold zlen; simpl; lia.
    + destruct (IH (i + 1) st1) as [(pre & x & rest & st' & -> & E1 & M)|(st' & E1 & M)].
      * left. exists (v :: pre), x, rest, st'. split; [auto|]. rewrite E1, zlen_cons. split; [do 2 f_equal; lia|].
        simpl. now rewrite E, M.
      * right. exists st'. rewrite E1, M. auto.
Qed.
Lemma AnyOf_ok {St} (pred : St -> T -> bool * St) a : forall st,
  (exists pre x rest st', a = pre ++ x :: rest /\ AnyOf a pred st = (true, st') /\
     answers pred st (pre ++ [x]) (repeat false (length pre) ++ [true]) st') \/
  (exists st', AnyOf a pred st = (false, st') /\ answers pred st a (repeat false (length a)) st').
Proof.
  unfold answers. induction a as [|v a IH]; intros st; simpl.
  - right. exists st. auto.
  - destruct (pred st v) as [[|] st1] eqn:E.
    + left. exists [], v, a, st1. split; [auto|]. simpl. rewrite E. auto.
    + destruct (IH st1) as [(pre & x & rest & st' & -> & E1 & M)|(st' & E1 & M)].
      * left. exists (v :: pre), x, rest, st'. split; [auto|]. split; [auto|].
        simpl. now rewrite E, M.
      * right. exists st'. rewrite E1, M. auto.
Qed.
Lemma AllOf_ok {St} (pred : St -> T -> bool * St) a : forall st,
  (exists pre x rest st', a = pre ++ x :: rest /\ AllOf a pred st = (false, st') /\
     answers pred st (pre ++ [x]) (repeat true (length pre) ++ [false]) st') \/
  (exists st', AllOf a pred st = (true, st') /\ answers pred st a (repeat true (length a)) st').
Proof.
  unfold answers. induction a as [|v a IH]; intros st; simpl.
  - right. exists st. auto.
  - destruct (pred st v) as [[|] st1] eqn:E; cbn [negb].
    + destruct (IH st1) as [(pre & x & rest & st' & -> & E1 & M)|(st' & E1 & M)].
      * left. exists (v :: pre), x, rest, st'. split; [auto|]. split; [auto|].
        simpl. now rewrite E, M.
      * right. exists st'. rewrite E1, M. auto.
    + left. exists [], v, a, st1. split; [auto|]. simpl. rewrite E. auto.
Qed.

Lemma map_st_pure {R} (f : T -> R) a : map_st (fun (u : unit) x => (f x, u)) tt a = (map f a, tt).
Proof. induction a as [|x a IH]; simpl; auto. now rewrite IH. Qed.
Lemma AllOf_pure (p : T -> bool) a : fst (AllOf a (fun (u : unit) x => (p x, u)) tt) = true <-> (forall x, In x a -> p x = true).
Proof.
  induction a as [|x a IH]; simpl; [tauto|]. destruct (p x) eqn:E; simpl.
  - rewrite IH. split; intros H; [intros y [<-|Hy]; auto|auto].
  - split; [discriminate|]. intros H. rewrite H in E by auto. discriminate.
Qed.
Lemma AnyOf_pure (p : T -> bool) a : fst (AnyOf a (fun (u : unit) x => (p x, u)) tt) = true <-> (exists x, In x a /\ p x = true).
Proof.
  induction a as [|x a IH]; simpl.
  - split; [discriminate|intros (x & [] & _)].
  - destruct (p x) eqn:E; simpl.
    + split; eauto.
    + rewrite IH. split; [intros (y & H1 & H2); eauto|]. intros (y & [->|H1] & H2); [congruence|eauto].
Qed.

(** *** Count *)
Lemma CountIf_loop_ok {St} (pred : St -> T -> bool * St) a : forall c st,
  CountIf_loop a pred c st = (c + zlen (filter (fun ok : bool => ok) (fst (map_st pred st a))), snd (map_st pred st a)).
Proof.
  induction a as [|v a IH]; intros c st; simpl.
  - change (zlen (@nil bool)) with 0. f_equal. lia.
  - destruct (pred st v) as [b st1]. rewrite IH. destruct (map_st pred st1 a) as [bs st2]. simpl.
    destruct b; [rewrite zlen_cons|]; f_equal; lia.
Qed.
Lemma Count_loop_ok eqb x a : forall c, Count_loop eqb a x c = c + zlen (filter (fun v => eqb v x) a).
Proof.
  induction a as [|v a IH]; intros c; simpl.
  - change (zlen (@nil T)) with 0. lia.
  - rewrite IH. destruct (eqb v x); [rewrite zlen_cons|]; lia.
Qed.

(** *** Equal *)
Lemma Equal_loop_ok eqb ra : forall rb pa pb, length pa = length pb -> length ra = length rb ->
  exists r, Equal_loop eqb (length ra) (zlen pa) (pa ++ ra) (pb ++ rb) = Ok r /\
    (r = true <-> Forall2 (fun x y => eqb x y = true) ra rb).
Proof.
  induction ra as [|x ra IH]; intros rb pa pb Hp Hr; destruct rb as [|y rb]; simpl in Hr; try discriminate.
  - exists true. simpl. split; auto. split; auto.
  - cbn [length Equal_loop]. rewrite (at_ok _ _ x) by apply zget_mid. cbn [obind].
    rewrite (at_ok (pb ++ y :: rb) (zlen pa) y) by (replace (zlen pa) with (zlen pb) by (unfold zlen; lia); apply zget_mid). cbn [obind].
    destruct (eqb x y) eqn:E; cbn [negb].
    + rewrite (snoc_assoc pa), (snoc_assoc pb), <- zlen_snoc with (x := x).
      destruct (IH rb (pa ++ [x]) (pb ++ [y])) as (r & E1 & H); [rewrite !app_length; simpl; lia|lia|].
      exists r. split; auto. rewrite H. split; intros K; [constructor; auto|inversion K; auto].
    + exists false. split; auto. split; [discriminate|]. intros K. inversion K. congruence.
Qed.
Lemma Forall2_zget (R : T -> T -> Prop) a b : length a = length b ->
  (Forall2 R a b <-> forall i x y, zget a i = Some x -> zget b i = Some y -> R x y).
Proof.
  revert b. induction a as [|x a IH]; intros [|y b] Hl; simpl in Hl; try discriminate.
  - split; [|constructor]. intros _ i x y G. pose proof (zget_Some_range _ _ _ G) as K. unfold zlen in K. simpl in K. lia.
  - split.
    + intros H i u v Gu Gv. inversion H; subst. destruct (Z.eq_dec i 0) as [->|N].
      * injection Gu as <-. injection Gv as <-. auto.
      * pose proof (zget_Some_range _ _ _ Gu). rewrite zget_cons_S in Gu, Gv by lia.
        refine (proj1 (IH b _) _ _ _ _ Gu Gv); auto.
    + intros H. constructor; [apply (H 0); reflexivity|]. apply IH; [lia|]. intros i u v Gu Gv.
      pose proof (zget_Some_range _ _ _ Gu).
      apply (H (i + 1)); rewrite zget_cons_S by lia; replace (i + 1 - 1) with i by lia; auto.
Qed.
Lemma Equal_ok eqb a b : exists r, Equal eqb a b = Ok r /\
  (r = true <-> zlen a = zlen b /\ forall i x y, zget a i = Some x -> zget b i = Some y -> eqb x y = true).
Proof.
  unfold Equal. destruct (Z.eqb_spec (zlen a) (zlen b)) as [E|E]; cbn [negb].
  - assert (L : length a = length b) by (unfold zlen in E; lia).
    destruct (Equal_loop_ok eqb a b [] [] eq_refl L) as (r & E1 & H). exists r. split; [exact E1|].
    rewrite H, Forall2_zget by auto. tauto.
  - exists false. split; auto. split; [discriminate|tauto].
Qed.

(** *** Compare *)
Fixpoint cmp ltb a b : Z :=
  match a, b with
  | [], [] => 0
  | [], _ :: _ => -1
  | _ :: _, [] => 1
  | x :: a', y :: b' => if ltb x y then -1 else if ltb y x then 1 else cmp ltb a' b'
  end.
Lemma Compare_loop_ok ltb ra : forall rb pa pb, length pa = length pb ->
  Compare_loop ltb ra (zlen pa) (pa ++ ra) (pb ++ rb) = Ok (cmp ltb ra rb).
Proof.
  induction ra as [|x ra IH]; intros rb pa pb Hp; cbn [Compare_loop].
  - rewrite !zlen_app. assert (zlen pa = zlen pb) by (unfold zlen; lia).
    destruct rb as [|y rb]; simpl.
    + destruct (Z.ltb_spec (zlen pa + zlen (@nil T)) (zlen pb + zlen (@nil T))); [lia|auto].
    + rewrite zlen_cons. pose proof (zlen_nonneg rb). change (zlen (@nil T)) with 0.
      destruct (Z.ltb_spec (zlen pa + 0) (zlen pb + (1 + zlen rb))); [auto|lia].
  - assert (Zp : zlen pa = zlen pb) by (unfold zlen; lia). rewrite zlen_app. destruct rb as [|y rb]; cbn [cmp].
    + change (zlen (@nil T)) with 0. destruct (Z.leb_spec (zlen pb + 0) (zlen pa)); [auto|lia].
    + rewrite zlen_cons. pose proof (zlen_nonneg rb). destruct (Z.leb_spec (zlen pb + (1 + zlen rb)) (zlen pa)); [lia|].
      rewrite (at_ok (pb ++ y :: rb) (zlen pa) y) by (rewrite Zp; apply zget_mid). cbn [obind].
      destruct (ltb x y); auto. destruct (ltb y x); auto.
      rewrite (snoc_assoc pa), (snoc_assoc pb), <- zlen_snoc with (x := x). apply IH. rewrite !app_length; simpl; lia.
Qed.
Lemma Compare_cmp ltb a b : Compare ltb a b = Ok (cmp ltb a b).
Proof. exact (Compare_loop_ok ltb a b [] [] eq_refl). Qed.

Lemma agree_cons ltb x y a b p : 0 < p ->
  agree_before ltb p (x :: a) (y :: b) <-> (ltb x y = false /\ ltb y x = false) /\ agree_before ltb (p - 1) a b.
Proof.
  intros Hp. split.
  - intros H. split; [apply (H 0); auto|]. intros i u v Hi Gu Gv. pose proof (zget_Some_range _ _ _ Gu).
    apply (H (i + 1)); [lia| |]; rewrite zget_cons_S by lia; replace (i + 1 - 1) with i by lia; auto.
  - intros [H0 H] i u v Hi Gu Gv. pose proof (zget_Some_range _ _ _ Gu). destruct (Z.eq_dec i 0) as [->|N].
    + injection Gu as <-. injection Gv as <-. auto.
    + rewrite zget_cons_S in Gu, Gv by lia. apply (H (i - 1)); auto. lia.
Qed.
Lemma agree_0 ltb a b p : p <= 0 -> agree_before ltb p a b.
Proof. intros H i x y Hi G. pose proof (zget_Some_range _ _ _ G). lia. Qed.

Lemma lex_lt_nil_r ltb a : ~ lex_lt ltb a [].
Proof.
  intros (p & H1 & H2 & _ & [[-> H3]|(x & y & _ & G & _)]); change (zlen (@nil T)) with 0 in *; [lia|].
  pose proof (zget_Some_range _ _ _ G) as K. change (zlen (@nil T)) with 0 in K. lia.
Qed.
Lemma lex_lt_nil_l ltb b : lex_lt ltb [] b <-> b <> [].
Proof.
  split.
  - intros H ->. exact (lex_lt_nil_r ltb [] H).
  - intros H. exists 0. change (zlen (@nil T)) with 0. destruct b as [|y b]; [congruence|]. rewrite zlen_cons. pose proof (zlen_nonneg b).
    split; [lia|]. split; [lia|]. split; [apply agree_0; lia|]. left. lia.
Qed.
Lemma lex_lt_cons ltb x y a b : lex_lt ltb (x :: a) (y :: b) <->
  ltb x y = true \/ ((ltb x y = false /\ ltb y x = false) /\ lex_lt ltb a b).
Proof.
  split.
  - intros (p & H1 & H2 & A & D). rewrite !zlen_cons in *. destruct (Z.eq_dec p 0) as [->|N].
    + left. destruct D as [[D _]|(u & v & G1 & G2 & L)]; [pose proof (zlen_nonneg a); lia|].
      injection G1 as <-. injection G2 as <-. auto.
    + right. apply agree_cons in A as [A0 A]; [|lia]. split; auto. exists (p - 1).
      split; [lia|]. split; [lia|]. split; [auto|]. destruct D as [D|(u & v & G1 & G2 & L)]; [left; lia|right].
      rewrite zget_cons_S in G1, G2 by lia. eauto.
  - pose proof (zlen_nonneg a). pose proof (zlen_nonneg b). intros [L|[A0 (p & H1 & H2 & A & D)]].
    + exists 0. rewrite !zlen_cons. split; [lia|]. split; [lia|]. split; [apply agree_0; lia|]. right. exists x, y. auto.
    + exists (p + 1). rewrite !zlen_cons. split; [lia|]. split; [lia|]. split.
      * apply agree_cons; [lia|]. split; auto. now replace (p + 1 - 1) with p by lia.
      * destruct D as [D|(u & v & G1 & G2 & L)]; [left; lia|right]. exists u, v.
        rewrite !zget_cons_S by lia. replace (p + 1 - 1) with p by lia. auto.
Qed.
Lemma lex_eq_nil ltb b : lex_eq ltb [] b <-> b = [].
Proof.
  split.
  - intros [H _]. change (zlen (@nil T)) with 0 in H. destruct b as [|y b]; auto. rewrite zlen_cons in H. pose proof (zlen_nonneg b). lia.
  - intros ->. split; auto. apply agree_0. change (zlen (@nil T)) with 0. lia.
Qed.
Lemma lex_eq_nil_r ltb a : lex_eq ltb a [] <-> a = [].
Proof.
  split.
  - intros [H _]. change (zlen (@nil T)) with 0 in H. destruct a as [|y b]; auto. rewrite zlen_cons in H. pose proof (zlen_nonneg b). lia.
  - intros ->. split; auto. apply agree_0. change (zlen (@nil T)) with 0. lia.
Qed.
Lemma lex_eq_cons ltb x y a b : lex_eq ltb (x :: a) (y :: b) <-> (ltb x y = false /\ ltb y x = false) /\ lex_eq ltb a b.
Proof.
  unfold lex_eq. rewrite !zlen_cons. pose proof (zlen_nonneg a). rewrite agree_cons by lia.
  replace (1 + zlen a - 1) with (zlen a) by lia. intuition lia.
Qed.

Lemma cmp_ok ltb (A : forall x y, ltb x y = true -> ltb y x = false) a : forall b,
  (cmp ltb a b = -1 /\ lex_lt ltb a b /\ ~ lex_eq ltb a b /\ ~ lex_lt ltb b a) \/
  (cmp ltb a b = 0 /\ ~ lex_lt ltb a b /\ lex_eq ltb a b /\ ~ lex_lt ltb b a) \/
  (cmp ltb a b = 1 /\ ~ lex_lt ltb a b /\ ~ lex_eq ltb a b /\ lex_lt ltb b a).
Proof.
  induction a as [|x a IH]; intros [|y b]; cbn [cmp].
  - right; left. rewrite lex_lt_nil_l, lex_eq_nil. intuition congruence.
  - left. rewrite lex_lt_nil_l, lex_eq_nil. split; auto. split; [congruence|]. split; [congruence|apply lex_lt_nil_r].
  - right; right. rewrite lex_lt_nil_l, lex_eq_nil_r. split; auto. split; [apply lex_lt_nil_r|]. split; congruence.
  - rewrite !lex_lt_cons, lex_eq_cons. destruct (ltb x y) eqn:E1.
    + rewrite (A _ _ E1). left. intuition congruence.
    + destruct (ltb y x) eqn:E2.
      * right; right. intuition congruence.
      * specialize (IH b). intuition congruence.
Qed.
Lemma cmp_antisym ltb (A : forall x y, ltb x y = true -> ltb y x = false) a : forall b, cmp ltb b a = - cmp ltb a b.
Proof.
  induction a as [|x a IH]; intros [|y b]; cbn [cmp]; auto.
  destruct (ltb x y) eqn:E1; [now rewrite (A _ _ E1)|]. destruct (ltb y x); auto.
Qed.
Lemma cmp_range ltb a : forall b, -1 <= cmp ltb a b <= 1.
Proof.
  induction a as [|x a IH]; intros [|y b]; cbn [cmp]; try lia. destruct (ltb x y); [lia|]. destruct (ltb y x); [lia|auto].
Qed.
Lemma sw_asym ltb : strict_weak ltb -> forall x y, ltb x y = true -> ltb y x = false.
Proof. intros S. eapply nan_asym. apply (sw_nan ltb S). Qed.
Lemma cmp_trans ltb (S : strict_weak ltb) a : forall b c, cmp ltb a b <= 0 -> cmp ltb b c <= 0 ->
  cmp ltb a c <= 0 /\ (cmp ltb a b < 0 \/ cmp ltb b c < 0 -> cmp ltb a c < 0).
Proof.
  pose proof (sw_asym ltb S) as As.
  induction a as [|x a IH]; intros [|y b] [|z c]; cbn [cmp]; try lia.
  destruct (ltb x y) eqn:Exy; [|destruct (ltb y x) eqn:Eyx; [lia|]];
  (destruct (ltb y z) eqn:Eyz; [|destruct (ltb z y) eqn:Ezy; [lia|]]).
  - rewrite (sw_trans _ S x y z) by auto. lia.
  - assert (ltb x z = true). { destruct (ltb x z) eqn:E; auto. rewrite (sw_negtrans _ S x z y) in Exy; auto. } rewrite H. lia.
  - assert (ltb x z = true). { destruct (ltb x z) eqn:E; auto. rewrite (sw_negtrans _ S y x z) in Eyz; auto. } rewrite H. lia.
  - rewrite (sw_negtrans _ S x y z) by auto. rewrite (sw_negtrans _ S z y x) by auto. apply IH.
Qed.
Lemma cmp_equal ltb eqb (O : ordered ltb eqb) a b r : Equal eqb a b = Ok r -> (cmp ltb a b = 0 <-> r = true).
Proof.
  intros E. destruct (Equal_ok eqb a b) as (r' & E' & H). assert (r' = r) by congruence. subst r'. rewrite H.
  destruct (cmp_ok ltb (sw_asym ltb (ord_sw _ _ O)) a b) as [K|[K|K]].
  - split; [lia|]. intros [L Q]. exfalso. apply (proj1 (proj2 (proj2 K))). split; auto. intros i x y _ Gx Gy. specialize (Q i x y Gx Gy).
    rewrite (ord_eq _ _ O) in Q. apply andb_prop in Q as [Q1 Q2]. apply negb_true_iff in Q1, Q2. auto.
  - split; [intros _|tauto]. destruct K as (_ & _ & (L & Q) & _). split; auto. intros i x y Gx Gy.
    destruct (Q i x y) as [Q1 Q2]; auto. { pose proof (zget_Some_range _ _ _ Gx). lia. }
    now rewrite (ord_eq _ _ O), Q1, Q2.
  - split; [lia|]. intros [L Q]. exfalso. apply (proj1 (proj2 (proj2 K))). split; auto. intros i x y _ Gx Gy. specialize (Q i x y Gx Gy).
    rewrite (ord_eq _ _ O) in Q. apply andb_prop in Q as [Q1 Q2]. apply negb_true_iff in Q1, Q2. auto.
Qed.

Lemma OrderedCompare_three_way ltb : strict_weak ltb -> three_way (OrderedCompare ltb).
Proof.
  intros S. pose proof (sw_asym ltb S) as A. constructor; intros x y; unfold OrderedCompare.
  - destruct (ltb x y) eqn:E1; [now rewrite (A _ _ E1)|]. destruct (ltb y x); reflexivity.
  - intros z H1 H2. destruct (ltb x z) eqn:E; [lia|]. destruct (ltb z x) eqn:E'; [|lia]. exfalso.
    assert (Hyx : ltb y x = false). { destruct (ltb x y) eqn:E1; auto. destruct (ltb y x); auto; lia. }
    assert (Hzy : ltb z y = false). { destruct (ltb y z) eqn:E1; auto. destruct (ltb z y); auto; lia. }
    rewrite (sw_negtrans _ S z y x) in E'; auto. discriminate.
Qed.
End Lookup.
