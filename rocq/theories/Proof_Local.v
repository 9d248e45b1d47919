From Verif Require Import BaseLemmas Nodes Trace Spec_List Spec_Local.

Lemma nth_upd {X} (v : X) l : forall a b, nth_error (upd a v l) b = if (a =? b)%nat then match nth_error l a with Some _ => Some v | None => None end else nth_error l b.
Proof. induction l as [|x l IH]; intros [|a] [|b]; cbn; auto; try (destruct (a =? b)%nat; reflexivity). Qed.

Section Loc.
Context {N H : Type}.
Notation ST := (list N * H)%type.
(** The relational rule: [n0] is the size of the heap at the start, [adrs] the old nodes
    that may be used. *)
Variable n0 : nat.
Variable adrs : list nat.
Definition ok (a : nat) : Prop := In a adrs \/ (n0 <= a)%nat.
Definition rel (h h' : list N) : Prop := (n0 <= length h)%nat /\ length h' = length h /\ forall a, ok a -> nth_error h' a = nth_error h a.
Definition loc {A} (p : ST -> outcome A * ST) (s : ST) : Prop :=
  forall h', rel (fst s) h' -> exists h1', p (h', snd s) = (fst (p s), (h1', snd (snd (p s)))) /\ rel (fst (snd (p s))) h1' /\
    forall a, ~ ok a -> nth_error h1' a = nth_error h' a.
Lemma loc_same {A} (p : ST -> outcome A * ST) s o : p s = (o, s) -> (forall h', rel (fst s) h' -> p (h', snd s) = (o, (h', snd s))) -> loc p s.
Proof. intros E F h' R. exists h'. rewrite E, F by auto. cbn. auto. Qed.
Lemma loc_ret {A} (x : A) s : loc (ret x) s.
Proof. apply (loc_same _ _ (Ok x)); auto. Qed.
Lemma loc_panic {A} s : loc (@panic ST A) s.
Proof. apply (loc_same _ _ Panic); auto. Qed.
Lemma loc_hget {A} (f : H -> A) s : loc (hget f) s.
Proof. apply (loc_same _ _ (Ok (f (snd s)))); auto. Qed.
Lemma loc_hmod f s : loc (hmod f) s.
Proof. intros h' R. exists h'. cbn. auto. Qed.
Definition okp (p : ptr) : Prop := match p with None => True | Some a => ok a end.
Lemma loc_pload p s : okp p -> loc (pload p) s.
Proof.
  intros O. destruct p as [a|]; [|apply (loc_same _ _ Panic); auto]. unfold pload. intros h' (K & L & R). exists h'. cbn [fst snd]. rewrite (R a O). destruct (nth_error (fst s) a); cbn; unfold rel; auto.
Qed.
Lemma loc_pmod p f s : okp p -> loc (pmod p f) s.
Proof.
  intros O. destruct p as [a|]; [|apply (loc_same _ _ Panic); auto]. unfold pmod. intros h' (K & L & R). cbn [fst snd]. rewrite (R a O). destruct (nth_error (fst s) a) as [n|] eqn:E; cbn [fst snd].
  - exists (upd a (f n) h'). split; [reflexivity|]. split.
    + split; [now rewrite upd_length|]. split; [now rewrite !upd_length|]. intros b Ob. rewrite !nth_upd, (R a O), (R b Ob). reflexivity.
    + intros b Nb. rewrite nth_upd. destruct (Nat.eqb_spec a b); [subst; contradiction|reflexivity].
  - exists h'. unfold rel. auto.
Qed.
Lemma loc_pnew n s : loc (pnew n) s.
Proof.
  intros h' (K & L & R). exists (h' ++ [n]). unfold pnew. cbn [fst snd]. rewrite L. split; [reflexivity|]. split.
  - split; [rewrite app_length; lia|]. split; [rewrite !app_length; lia|]. intros b Ob. destruct (Nat.lt_ge_cases b (length h')); [rewrite !nth_error_app1 by lia; auto|]. now rewrite !nth_error_app2, L by lia.
  - intros b Nb. destruct (Nat.lt_ge_cases b (length h')); [now rewrite nth_error_app1 by lia|]. destruct Nb. right. lia.
Qed.
Lemma loc_bind {A B} (p : M ST A) (f : A -> M ST B) s : loc p s -> (forall x s1, p s = (Ok x, s1) -> loc (f x) s1) -> loc (bind p f) s.
Proof.
  intros L1 L2 h' R. destruct (L1 h' R) as (h1' & E1 & R1 & F1). unfold bind. rewrite E1. destruct (p s) as [[x| |] s1]; cbn [fst snd] in *; [|exists h1'; now auto|exists h1'; now auto].
  destruct (L2 x s1 eq_refl h1' R1) as (h2' & E2 & R2 & F2). exists h2'. split; [exact E2|]. split; [exact R2|]. intros a Na. now rewrite F2, F1.
Qed.
Lemma loc_show {A B} (f : A -> B) (p : M ST A) s : loc p s -> loc (show f p) s.
Proof. intros L h' R. destruct (L h' R) as (h1' & E & R1 & F). exists h1'. unfold show. rewrite E. destruct (p s) as [[x| |] s1]; cbn in *; auto. Qed.
Lemma loc_observe {A B} (f : A -> obs B) (p : M ST A) s : loc p s -> loc (observe f p) s.
Proof. intros L h' R. destruct (L h' R) as (h1' & E & R1 & F). exists h1'. unfold observe. rewrite E. destruct (p s) as [[x| |] s1]; cbn in *; auto. Qed.
End Loc.

Lemma loc_uses {N H A} adrs (p : list N * H -> outcome A * (list N * H)) s : loc (length (fst s)) adrs p s -> uses p s adrs.
Proof.
  intros L h' [E R]. destruct (L h') as (h1' & E1 & (K & L1 & R1) & F1).
  - split; [lia|]. split; [exact E|]. intros a [I|G]; [auto|]. transitivity (@None N); [|symmetry]; apply nth_error_None; lia.
  - cbn zeta. rewrite E1. cbn [fst snd]. rewrite E. split; [reflexivity|]. split; [reflexivity|]. split; [exact L1|]. split; [exact R1|]. intros a Na La. apply F1. intros [I|G]; [contradiction|lia].
Qed.

Definition ofp (p : ptr) : list nat := match p with None => [] | Some a => [a] end.
Lemma ofp_len p : (length (ofp p) <= 1)%nat.
Proof. destruct p; cbn; lia. Qed.
Lemma okp_in n0 adrs p : incl (ofp p) adrs -> okp n0 adrs p.
Proof. destruct p as [a|]; cbn; auto. intros I. left. apply I. now left. Qed.
Lemma okp_new n0 adrs a : (n0 <= a)%nat -> okp n0 adrs (Some a).
Proof. intros G. right. exact G. Qed.

Section Inv.
Context {N H : Type}.
Notation ST := (list N * H)%type.
Lemma pload_inv p (s : ST) n s1 : pload p s = (Ok n, s1) -> s1 = s /\ exists a, p = Some a /\ nth_error (fst s) a = Some n.
Proof. unfold pload. destruct p as [a|]; [|discriminate]. destruct (nth_error (fst s) a) eqn:E; intros Q; inversion Q; subst. eauto. Qed.
Lemma pmod_inv p f (s : ST) x s1 : pmod p f s = (Ok x, s1) -> exists a n, p = Some a /\ nth_error (fst s) a = Some n /\ s1 = (upd a (f n) (fst s), snd s).
Proof. unfold pmod. destruct p as [a|]; [|discriminate]. destruct (nth_error (fst s) a) eqn:E; intros Q; inversion Q; subst. eauto 10. Qed.
Lemma bind_inv {A B} (p : M ST A) (f : A -> M ST B) s y s2 : bind p f s = (Ok y, s2) -> exists x s1, p s = (Ok x, s1) /\ f x s1 = (Ok y, s2).
Proof. unfold bind. destruct (p s) as [[x| |] s1]; try discriminate. eauto. Qed.
End Inv.

(** Breaks a program up, leaving the pointers that are followed. *)
Ltac lsimple := first [apply loc_ret | apply loc_panic | apply loc_hget | apply loc_hmod | apply loc_pnew].
Ltac linv E := lazymatch type of E with
  | hget _ _ = _ => unfold hget in E; injection E as <- <-
  | hmod _ _ = _ => unfold hmod in E; injection E as <- <-
  | pnew _ _ = _ => unfold pnew in E; injection E as <- <-
  | ret _ _ = _ => unfold ret in E; injection E as <- <-
  | pload _ _ = _ => let a := fresh "a" in let Ha := fresh "Ha" in apply pload_inv in E; destruct E as (-> & a & Ha & E)
  | pmod _ _ _ = _ => let a := fresh "a" in let Ha := fresh "Ha" in let n := fresh "n" in let G := fresh "G" in apply pmod_inv in E; destruct E as (a & n & Ha & G & ->)
  | bind _ _ _ = _ => let E1 := fresh "E" in let E2 := fresh "E" in apply bind_inv in E; destruct E as (? & ? & E1 & E2); linv E1; linv E2
  | _ => idtac
  end.
Ltac lbind := apply loc_bind; [try lsimple|let E := fresh "E" in intros ? ? E; linv E; cbn [fst snd] in *].

Ltac lgo := repeat first [lsimple | match goal with |- loc _ _ (if ?b then _ else _) _ => destruct b eqn:? end | lbind | apply loc_pload | apply loc_pmod].

(** How much a program adds to the heap. *)
Section Grow.
Context {N H : Type}.
Notation ST := (list N * H)%type.
Definition grw {A} (k : nat) (p : ST -> outcome A * ST) : Prop := forall s, (length (fst (snd (p s))) <= length (fst s) + k)%nat.
Lemma grw_ret {A} (x : A) : grw 0 (ret x). Proof. intros s. cbn. lia. Qed.
Lemma grw_panic {A} : grw 0 (@panic ST A). Proof. intros s. cbn. lia. Qed.
Lemma grw_hget {A} (f : H -> A) : grw 0 (hget f). Proof. intros s. cbn. lia. Qed.
Lemma grw_hmod f : grw 0 (hmod f). Proof. intros s. cbn. lia. Qed.
Lemma grw_pload p : grw 0 (pload p). Proof. intros s. unfold pload. destruct p as [a|]; [destruct (nth_error (fst s) a)|]; cbn; lia. Qed.
Lemma grw_pmod p f : grw 0 (pmod p f). Proof. intros s. unfold pmod. destruct p as [a|]; [destruct (nth_error (fst s) a)|]; cbn; rewrite ?upd_length; lia. Qed.
Lemma grw_pnew n : grw 1 (pnew n). Proof. intros s. cbn. rewrite app_length. cbn. lia. Qed.
Lemma grw_bind {A B} j k (p : M ST A) (f : A -> M ST B) : grw j p -> (forall x, grw k (f x)) -> grw (j + k) (bind p f).
Proof. intros P Q s. specialize (P s). unfold bind. destruct (p s) as [[x| |] s1]; cbn [fst snd] in *; try lia. specialize (Q x s1). lia. Qed.
Lemma grw_0 {A B} (p : M ST A) (f : A -> M ST B) k : grw 0 p -> (forall x, grw k (f x)) -> grw k (bind p f).
Proof. apply (grw_bind 0). Qed.
Lemma grw_1 {A B} (p : M ST A) (f : A -> M ST B) k : grw 1 p -> (forall x, grw k (f x)) -> grw (S k) (bind p f).
Proof. apply (grw_bind 1). Qed.
Lemma grw_le {A} j k (p : M ST A) : (j <= k)%nat -> grw j p -> grw k p.
Proof. intros L P s. specialize (P s). lia. Qed.
Lemma grw_show {A B} (f : A -> B) k (p : M ST A) : grw k p -> grw k (show f p).
Proof. intros G s. specialize (G s). unfold show. destruct (p s). exact G. Qed.
Lemma grw_observe {A B} (f : A -> obs B) k (p : M ST A) : grw k p -> grw k (observe f p).
Proof. intros G s. specialize (G s). unfold observe. destruct (p s). exact G. Qed.
End Grow.
Ltac gr := repeat first
  [ apply grw_ret | apply grw_panic | apply grw_hget | apply grw_hmod | apply grw_pload | apply grw_pmod | apply grw_pnew
  | apply grw_0; [solve [gr]|intros ?] | apply grw_1; [solve [gr]|intros ?] | match goal with |- grw _ (if ?b then _ else _) => destruct b end
  | match goal with |- grw _ (fun _ => _) => fail 1 | |- grw (S _) _ => apply (grw_le 0); [lia|] end ].

From Verif Require Model_SList.
Section SListLocal.
Import Model_SList.
Context {T : Type}.
Notation ST := (list (snode T) * slist)%type.
Notation within := (@within (snode T) slist).
Lemma mk_within {N H A} (n k : nat) adrs (p : list N * H -> outcome A * (list N * H)) s : (length adrs <= n)%nat -> loc (length (fst s)) adrs p s -> (length (fst (snd (p s))) <= length (fst s) + k)%nat -> Spec_Local.within n k p s.
Proof. intros L U G. split; [|exact G]. exists adrs. split; [exact L|now apply loc_uses]. Qed.

Fixpoint walk (h : list (snode T)) (i : nat) (p : ptr) : list nat :=
  match p with
  | None => []
  | Some a => a :: match i with O => [] | S i' => match nth_error h a with Some n => walk h i' (s_next n) | None => [] end end
  end.
Lemma walk_len h : forall i p, (length (walk h i p) <= S i)%nat.
Proof. induction i as [|i IH]; intros [a|]; cbn; try lia. destruct (nth_error h a); cbn; [specialize (IH (s_next s)); lia|lia]. Qed.
Lemma walk_head h i p : incl (ofp p) (walk h i p).
Proof. destruct p as [a|]; [|intros x []]. destruct i; intros x [<-|[]]; now left. Qed.
Lemma advance_loc n0 adrs : forall i it (s : ST), incl (walk (fst s) i it) adrs -> loc n0 adrs (advance i it) s /\ forall it' s1, advance i it s = (Ok it', s1) -> s1 = s /\ incl (ofp it') adrs.
Proof.
  induction i as [|i IH]; intros it s I; cbn [advance].
  - split; [apply loc_ret|]. intros it' s1 E. injection E as <- <-. split; [reflexivity|]. eapply incl_tran; [apply (walk_head (fst s) 0)|exact I].
  - assert (O : okp n0 adrs it) by (apply okp_in; eapply incl_tran; [apply walk_head|exact I]).
    assert (K : forall it1 s1, MoveToNext it s = (Ok it1, s1) -> s1 = s /\ incl (walk (fst s) i it1) adrs).
    { intros it1 s1 E. unfold MoveToNext in E. apply bind_inv in E as (n & s2 & E1 & E2). apply pload_inv in E1 as (-> & a & -> & E1). injection E2 as <- <-. split; [reflexivity|]. cbn [walk] in I. rewrite E1 in I. intros x X. apply I. now right. }
    split.
    + apply loc_bind; [unfold MoveToNext; lbind; [now apply loc_pload|apply loc_ret]|]. intros it1 s1 E. destruct (K _ _ E) as [-> I1]. now apply IH.
    + intros it' s1 E. apply bind_inv in E as (it1 & s2 & E1 & E2). destruct (K _ _ E1) as [-> I1]. now apply (IH it1 s I1).
Qed.
Lemma advance_grw : forall i it, grw 0 (@advance T i it).
Proof. induction i as [|i IH]; intros it; cbn [advance]; [gr|]. apply grw_0; [unfold MoveToNext; gr|auto]. Qed.
Lemma slist_within {St} zero (o : sop T St) n s : slist_uses o = Some n -> Spec_Local.within n (match o with LPushFront _ | LPushBack _ => 1 | _ => 0 end) (slist_step zero o) s.
Proof.
  intros E. destruct s as [h [hd tl len]]. destruct o; try discriminate; injection E as <-; cbn [slist_step].
  - apply (mk_within _ _ []); [cbn; lia| |apply grw_show; unfold PushFront; gr]. apply loc_show. unfold PushFront. lgo.
  - apply (mk_within _ _ (ofp tl)); [apply ofp_len| |apply grw_show; unfold PushBack; gr]. apply loc_show. unfold PushBack. lgo. apply okp_in, incl_refl.
  - apply (mk_within _ _ (ofp hd)); [apply ofp_len| |apply grw_show; unfold PopFront, IsEmpty; gr]. apply loc_show. unfold PopFront, IsEmpty. lgo.
    all: apply okp_in; cbn; apply incl_refl.
  - apply (mk_within _ _ []); [cbn; lia| |apply grw_show; unfold Clear; gr]. apply loc_show. unfold Clear. lgo.
  - apply (mk_within _ _ []); [cbn; lia| |apply grw_show; unfold Len; gr]. apply loc_show. unfold Len. lgo.
  - apply (mk_within _ _ []); [cbn; lia| |apply grw_show; unfold IsEmpty; gr]. apply loc_show. unfold IsEmpty. lgo.
  - apply (mk_within _ _ (ofp hd)); [apply ofp_len| |apply grw_show; unfold Front, IsEmpty; gr]. apply loc_show. unfold Front, IsEmpty. lgo. apply okp_in, incl_refl.
  - apply (mk_within _ _ (ofp tl)); [apply ofp_len| |apply grw_show; unfold Back, IsEmpty; gr]. apply loc_show. unfold Back, IsEmpty. lgo. apply okp_in, incl_refl.
  - apply (mk_within _ _ (walk h i hd)); [apply walk_len| |apply grw_show; unfold Iterate; apply grw_0; [gr|intros; apply grw_0; [apply advance_grw|intros; unfold Value; gr]]]. apply loc_show. unfold Iterate. lbind.
    destruct (advance_loc (length h) (walk h i hd) i hd (h, mkSList hd tl len) (incl_refl _)) as [A1 A2]. apply loc_bind; [exact A1|]. intros it s1 E. destruct (A2 _ _ E) as [-> I]. unfold Value. lgo. now apply okp_in.
  - apply (mk_within _ _ (walk h i hd)); [apply walk_len| |apply grw_show; unfold Iterate; apply grw_0; [gr|intros; apply grw_0; [apply advance_grw|intros; unfold Pointer_store; gr]]]. apply loc_show. unfold Iterate. lbind.
    destruct (advance_loc (length h) (walk h i hd) i hd (h, mkSList hd tl len) (incl_refl _)) as [A1 A2]. apply loc_bind; [exact A1|]. intros it s1 E. destruct (A2 _ _ E) as [-> I]. unfold Pointer_store. lgo. now apply okp_in.
Qed.
End SListLocal.

From Verif Require Model_DList Model_DListQueue.
Section DListLocal.
Import Model_DList.
Context {T : Type}.
Variable zero : T.
Notation ST := (list (dnode T) * dlist)%type.
Definition nx (h : list (dnode T)) (p : ptr) : ptr := match p with None => None | Some a => match nth_error h a with Some n => d_next n | None => None end end.
Definition pv (h : list (dnode T)) (p : ptr) : ptr := match p with None => None | Some a => match nth_error h a with Some n => d_prev n | None => None end end.
Lemma nx_at h a n : nth_error h a = Some n -> d_next n = nx h (Some a).
Proof. intros E. cbn. now rewrite E. Qed.
Lemma pv_at h a n : nth_error h a = Some n -> d_prev n = pv h (Some a).
Proof. intros E. cbn. now rewrite E. Qed.
Lemma ensure_grw : grw 1 (ensureHead zero).
Proof. unfold ensureHead. gr. Qed.
Lemma ensure_loc adrs (s : ST) : loc (length (fst s)) adrs (ensureHead zero) s.
Proof. unfold ensureHead, st_prev, st_next. lgo; apply okp_new; cbn; lia. Qed.
Lemma upd_snoc {X} (v x : X) h : upd (length h) v (h ++ [x]) = h ++ [v].
Proof. clear. induction h as [|y h IH]; cbn; [reflexivity|now rewrite IH]. Qed.
Lemma ensure_inv (s s1 : ST) x : ensureHead zero s = (Ok x, s1) -> (exists a, d_head (snd s) = Some a /\ s1 = s) \/
  (d_head (snd s) = None /\ exists l, d_head (snd s1) = Some (length (fst s)) /\ fst s1 = fst s ++ [l] /\ d_next l = Some (length (fst s)) /\ d_prev l = Some (length (fst s))).
Proof.
  destruct s as [h [[a|] len]]; unfold ensureHead; cbn; intros E; [injection E as <- <-; eauto|right]. split; [reflexivity|]. revert E.
  unfold bind, hget, hmod, pnew, st_prev, st_next, pmod. cbn. rewrite nth_error_app2, Nat.sub_diag by lia. cbn. rewrite nth_upd, Nat.eqb_refl, nth_error_app2, Nat.sub_diag by lia. cbn.
  intros E. injection E as <- <-. cbn. exists (mkDNode (Some (length h)) (Some (length h)) zero). repeat split.
  rewrite !upd_snoc. reflexivity.
Qed.
Ltac inad := apply okp_in; intros ? ?; rewrite ?in_app_iff; now auto.
Ltac ptrs := repeat match goal with
  | H : Some _ = Some _ |- _ => injection H as <-
  | H : None = Some _ |- _ => discriminate
  end.
Ltac inold := repeat match goal with
  | H : nth_error (?h ++ [_]) ?a = Some _, G : nth_error ?h ?a = Some _ |- _ => rewrite nth_error_app1 in H by (apply nth_error_Some; congruence)
  end.
Ltac fin := try inad; ptrs; inold; try inad; try match goal with
  | H : nth_error _ _ = Some ?n |- okp _ _ (d_next ?n) => rewrite (nx_at _ _ _ H); inad
  | H : nth_error _ _ = Some ?n |- okp _ _ (d_prev ?n) => rewrite (pv_at _ _ _ H); inad
  end.
(** A call that uses no more than n nodes in any state, and makes no more than k. *)
Definition win {N H A} (n k : nat) (p : M (list N * H) A) : Prop :=
  (forall s, exists adrs, (length adrs <= n)%nat /\ loc (length (fst s)) adrs p s) /\ grw k p.
Ltac lens := rewrite ?app_length; repeat match goal with |- context [length (ofp ?p)] => lazymatch goal with H : (length (ofp p) <= 1)%nat |- _ => fail | _ => pose proof (ofp_len p) end end; cbn in *; lia.
Lemma PushFront_win v : win 2 2 (PushFront zero v).
Proof.
  split; [|unfold PushFront, ld_next, st_prev, st_next; apply (grw_bind 1 1); [apply ensure_grw|intros; gr]].
  intros [h [hd len]]. exists (ofp hd ++ ofp (nx h hd)). split; [lens|].
  unfold PushFront. apply loc_bind; [apply ensure_loc|]. intros [] s1 E. apply ensure_inv in E. cbn [fst snd d_head] in E. unfold ld_next, st_prev, st_next.
  destruct E as [(a & Hh & ->)|(Hh & l & Hs & Hl & Hn & Hp)].
  - rewrite Hh. lgo; fin.
  - destruct s1 as [h1 hdr]. cbn [fst snd] in *. subst h1. assert (Q : forall m n, nth_error ((h ++ [l]) ++ m) (length h) = Some n -> n = l) by (intros m n; rewrite <- app_assoc, nth_error_app2, Nat.sub_diag by lia; cbn; congruence).
    lgo; rewrite ?Hs in *; try (apply okp_new; lia). ptrs.
    match goal with H : nth_error (_ ++ _) _ = Some ?n |- okp _ _ (d_next ?n) => apply Q in H; subst n; rewrite Hn; apply okp_new; lia end.
Qed.
Lemma PushBack_win v : win 2 2 (PushBack zero v).
Proof.
  split; [|unfold PushBack, ld_prev, st_prev, st_next; apply (grw_bind 1 1); [apply ensure_grw|intros; gr]].
  intros [h [hd len]]. exists (ofp hd ++ ofp (pv h hd)). split; [lens|].
  unfold PushBack. apply loc_bind; [apply ensure_loc|]. intros [] s1 E. apply ensure_inv in E. cbn [fst snd d_head] in E. unfold ld_prev, st_prev, st_next.
  destruct E as [(a & Hh & ->)|(Hh & l & Hs & Hl & Hn & Hp)].
  - rewrite Hh. lgo; fin.
  - destruct s1 as [h1 hdr]. cbn [fst snd] in *. subst h1. assert (Q : forall m n, nth_error ((h ++ [l]) ++ m) (length h) = Some n -> n = l) by (intros m n; rewrite <- app_assoc, nth_error_app2, Nat.sub_diag by lia; cbn; congruence).
    lgo; rewrite ?Hs in *; try (apply okp_new; lia). ptrs.
    match goal with H : nth_error (_ ++ _) _ = Some ?n |- okp _ _ (d_prev ?n) => apply Q in H; subst n; rewrite Hp; apply okp_new; lia end.
Qed.
Lemma TryPopFront_win : win 3 0 (TryPopFront zero).
Proof.
  split; [|unfold TryPopFront, IsEmpty, ld_next, ld_value, st_prev, st_next; gr].
  intros [h [hd len]]. exists (ofp hd ++ ofp (nx h hd) ++ ofp (nx h (nx h hd))). split; [lens|].
  unfold TryPopFront, IsEmpty, ld_next, ld_value, st_prev, st_next. lgo; fin; subst hd; ptrs.
  all: try match goal with H : nth_error _ _ = Some ?n |- okp _ _ (d_next ?n) => rewrite (nx_at _ _ _ H); inad end.
  match goal with H : nth_error (upd ?a _ _) ?a = Some _, G : nth_error h ?a = Some _ |- _ => rewrite nth_upd, Nat.eqb_refl, G in H; injection H as <- end.
  cbn [set_d_next d_next]. rewrite (nx_at _ _ _ E2), <- Ha1, (nx_at _ _ _ E0). inad.
Qed.
Lemma TryPopBack_win : win 3 0 (TryPopBack zero).
Proof.
  split; [|unfold TryPopBack, IsEmpty, ld_prev, ld_value, st_prev, st_next; gr].
  intros [h [hd len]]. exists (ofp hd ++ ofp (pv h hd) ++ ofp (pv h (pv h hd))). split; [lens|].
  unfold TryPopBack, IsEmpty, ld_prev, ld_value, st_prev, st_next. lgo; fin; subst hd; ptrs.
  all: try match goal with H : nth_error _ _ = Some ?n |- okp _ _ (d_prev ?n) => rewrite (pv_at _ _ _ H); inad end.
  match goal with H : nth_error (upd ?a _ _) ?a = Some _, G : nth_error h ?a = Some _ |- _ => rewrite nth_upd, Nat.eqb_refl, G in H; injection H as <- end.
  cbn [set_d_prev d_prev]. rewrite (pv_at _ _ _ E3), <- Ha2, (pv_at _ _ _ E2). inad.
Qed.
Lemma PopFront_win : win 3 0 (PopFront zero).
Proof.
  destruct TryPopFront_win as [W G]. split.
  - intros s. destruct (W s) as (adrs & L & F). exists adrs. split; [exact L|]. unfold PopFront. apply loc_bind; [exact F|]. intros [v b] s1 _. cbn. destruct b; cbn; lsimple.
  - unfold PopFront. apply grw_0; [exact G|]. intros x. gr.
Qed.
Lemma PopBack_win : win 3 0 (PopBack zero).
Proof.
  destruct TryPopBack_win as [W G]. split.
  - intros s. destruct (W s) as (adrs & L & F). exists adrs. split; [exact L|]. unfold PopBack. apply loc_bind; [exact F|]. intros [v b] s1 _. cbn. destruct b; cbn; lsimple.
  - unfold PopBack. apply grw_0; [exact G|]. intros x. gr.
Qed.
Lemma Clear_win : win 1 0 (@Clear T).
Proof.
  split; [|unfold Clear, st_prev, st_next; gr]. intros [h [hd len]]. exists (ofp hd). split; [lens|]. unfold Clear, st_prev, st_next. lgo; fin.
Qed.
Lemma Len_win : win 0 0 (@Len T).
Proof. split; [|unfold Len; gr]. intros s. exists []. split; [cbn; lia|]. unfold Len. lgo. Qed.
Lemma IsEmpty_win : win 0 0 (@IsEmpty T).
Proof. split; [|unfold IsEmpty; gr]. intros s. exists []. split; [cbn; lia|]. unfold IsEmpty. lgo. Qed.
Lemma Front_win : win 2 0 (@Front T).
Proof.
  split; [|unfold Front, IsEmpty, ld_next, ld_value; gr]. intros [h [hd len]]. exists (ofp hd ++ ofp (nx h hd)). split; [lens|]. unfold Front, IsEmpty, ld_next, ld_value. lgo; fin; subst hd; fin.
Qed.
Lemma Back_win : win 2 0 (@Back T).
Proof.
  split; [|unfold Back, IsEmpty, ld_prev, ld_value; gr]. intros [h [hd len]]. exists (ofp hd ++ ofp (pv h hd)). split; [lens|]. unfold Back, IsEmpty, ld_prev, ld_value. lgo; fin; subst hd; fin.
Qed.

Fixpoint dwalk (h : list (dnode T)) (i : nat) (p : ptr) : list nat := ofp p ++ match i with O => [] | S i' => dwalk h i' (nx h p) end.
Lemma dwalk_len h : forall i p, (length (dwalk h i p) <= S i)%nat.
Proof. induction i as [|i IH]; intros p; cbn [dwalk]; [lens|]. specialize (IH (nx h p)). lens. Qed.
Lemma dwalk_head h i p : incl (ofp p) (dwalk h i p).
Proof. destruct i; cbn; apply incl_appl, incl_refl. Qed.
Lemma dadvance_loc n0 adrs : forall i it (s : ST), incl (dwalk (fst s) i it) adrs -> loc n0 adrs (advance i it) s /\ forall it' s1, advance i it s = (Ok it', s1) -> s1 = s /\ incl (ofp it') adrs.
Proof.
  induction i as [|i IH]; intros it s I; cbn [advance].
  - split; [apply loc_ret|]. intros it' s1 E. injection E as <- <-. split; [reflexivity|]. eapply incl_tran; [apply (dwalk_head (fst s) 0)|exact I].
  - assert (O : okp n0 adrs it) by (apply okp_in; eapply incl_tran; [apply dwalk_head|exact I]).
    assert (K : forall it1 s1, MoveToNext it s = (Ok it1, s1) -> s1 = s /\ incl (dwalk (fst s) i it1) adrs).
    { intros it1 s1 E. unfold MoveToNext, ld_next in E. apply bind_inv in E as (n & s2 & E1 & E2). apply pload_inv in E1 as (-> & a & -> & E1). injection E2 as <- <-. split; [reflexivity|]. cbn [dwalk] in I. rewrite (nx_at _ _ _ E1). intros x X. apply I, in_app_iff. now right. }
    unfold IsNotEnd. split.
    + lbind; [lgo|]. destruct (negb (peqb it (d_head (snd s)))); [|apply loc_ret]. apply loc_bind; [unfold MoveToNext, ld_next; lgo; exact O|]. intros it1 s1 E. destruct (K _ _ E) as [-> I1]. now apply IH.
    + intros it' s1 E. apply bind_inv in E as (b & s2 & E1 & E2). injection E1 as <- <-. destruct (negb (peqb it (d_head (snd s)))).
      * apply bind_inv in E2 as (it1 & s2 & E1 & E2). destruct (K _ _ E1) as [-> I1]. now apply (IH it1 s I1).
      * injection E2 as <- <-. split; [reflexivity|]. eapply incl_tran; [apply (dwalk_head (fst s) (S i))|exact I].
Qed.
Lemma dadvance_grw : forall i it, grw 0 (@advance T i it).
Proof. induction i as [|i IH]; intros it; cbn [advance]; [gr|]. unfold IsNotEnd, MoveToNext, ld_next. apply grw_0; [gr|]. intros []; [|gr]. apply grw_0; [gr|auto]. Qed.
(** Follows the list to the i-th place and goes on with q there. *)
Lemma iter_win {A} i (q : ptr -> P (dnode T) dlist A) : (forall it s n0 adrs, okp n0 adrs it -> loc n0 adrs (q it) s) -> (forall it, grw 0 (q it)) ->
  win (S (S i)) 0 (it <- Iterate ;; it' <- advance i it ;; q it').
Proof.
  intros Lq Gq. split.
  - intros [h [hd len]]. exists (ofp hd ++ dwalk h i (nx h hd)). split; [pose proof (dwalk_len h i (nx h hd)); lens|]. apply loc_bind.
    + unfold Iterate, ld_next. lgo; fin.
    + intros it s1 E. assert (K : s1 = (h, mkDList hd len) /\ (it = nx h hd)).
      { unfold Iterate, ld_next in E. apply bind_inv in E as (p & s2 & E1 & E2). injection E1 as <- <-. cbn in E2. destruct hd as [a|]; cbn in E2.
        - apply bind_inv in E2 as (n & s2 & E1 & E2). apply pload_inv in E1 as (-> & b & Hb & E1). injection Hb as <-. injection E2 as <- <-. split; [reflexivity|]. now apply nx_at.
        - injection E2 as <- <-. auto. }
      destruct K as [-> ->]. destruct (dadvance_loc (length h) (ofp hd ++ dwalk h i (nx h hd)) i (nx h hd) (h, mkDList hd len)) as [A1 A2]; [apply incl_appr, incl_refl|].
      apply loc_bind; [exact A1|]. intros it s1 E1. destruct (A2 _ _ E1) as [-> I]. apply Lq. now apply okp_in.
  - unfold Iterate, ld_next. apply grw_0; [gr|]. intros it. apply grw_0; [apply dadvance_grw|exact Gq].
Qed.
Lemma iter_get_win i : win (S (S i)) 0 (iter_get zero i).
Proof. apply (iter_win i (fun it' => e <- IsNotEnd it' ;; if e : bool then v <- Value it' ;; ret (v, true) else ret (zero, false))); intros; unfold IsNotEnd, Value, ld_value; [lgo; auto|gr]. Qed.
Lemma iter_set_win i v : win (S (S i)) 0 (@iter_set T i v).
Proof. apply (iter_win i (fun it' => e <- IsNotEnd it' ;; if e : bool then Pointer_store it' v ;; ret true else ret false)); intros; unfold IsNotEnd, Pointer_store, st_value; [lgo; auto|gr]. Qed.

Lemma win_within {N H A} n k (p : M (list N * H) A) s : win n k p -> Spec_Local.within n k p s.
Proof. intros [W G]. destruct (W s) as (adrs & L & F). now apply (mk_within n k adrs). Qed.
Lemma win_show {N H A B} n k (f : A -> B) (p : M (list N * H) A) : win n k p -> win n k (show f p).
Proof. intros [W G]. split; [|now apply grw_show]. intros s. destruct (W s) as (adrs & L & F). exists adrs. split; [exact L|]. now apply loc_show. Qed.
Lemma win_observe {N H A B} n k (f : A -> obs B) (p : M (list N * H) A) : win n k p -> win n k (observe f p).
Proof. intros [W G]. split; [|now apply grw_observe]. intros s. destruct (W s) as (adrs & L & F). exists adrs. split; [exact L|]. now apply loc_observe. Qed.
Lemma dlist_within {St} (o : dop T St) n s : dlist_uses o = Some n -> Spec_Local.within n (match o with DPushFront _ | DPushBack _ => 2 | _ => 0 end) (dlist_step zero o) s.
Proof.
  intros E. destruct o; try discriminate; injection E as <-; cbn [dlist_step]; apply win_within, win_show;
    [apply PushFront_win | apply PushBack_win | apply PopFront_win | apply PopBack_win | apply TryPopFront_win | apply TryPopBack_win | apply Clear_win | apply Len_win | apply IsEmpty_win | apply Front_win | apply Back_win | apply iter_get_win | apply iter_set_win].
Qed.
Import Model_DListQueue.
Lemma win_on {A} n k (p : P (dnode T) dlist A) : win n k p -> win n k (on_list p).
Proof.
  intros [W G]. split.
  - intros [h [l]]. destruct (W (h, l)) as (adrs & L & F). exists adrs. split; [exact L|]. intros h' R. destruct (F h' R) as (h1' & E & R1 & F1). unfold on_list. cbn [fst snd q_list] in *. rewrite E.
    destruct (p (h, l)) as [r [h2 l2]]; cbn [fst snd] in *. exists h1'. auto.
  - intros [h [l]]. specialize (G (h, l)). unfold on_list. cbn [fst snd q_list] in *. destruct (p (h, l)) as [r [h2 l2]]; cbn [fst snd] in *. exact G.
Qed.
Lemma queue_within (o : qop T) s : Spec_Local.within (queue_uses o) (match o with QPushFront _ | QPushBack _ => 2 | _ => 0 end) (queue_step zero o) s.
Proof.
  destruct o; cbn [queue_step queue_uses]; apply win_within, win_observe, win_on;
    [apply PushFront_win | apply PushBack_win | apply PopFront_win | apply PopBack_win | apply TryPopFront_win | apply TryPopBack_win | apply Clear_win | apply Len_win | apply IsEmpty_win | apply Front_win | apply Back_win].
Qed.
End DListLocal.

(** Calls whose answer depends on the value in each node use them all. *)
Lemma uses_all {N H A} (p : list N * H -> outcome A * (list N * H)) h hdr adrs (l : list nat) : uses p (h, hdr) adrs -> NoDup l ->
  (forall a, In a l -> exists n, fst (p (upd a n h, hdr)) <> fst (p (h, hdr))) -> (length l <= length adrs)%nat.
Proof.
  intros U ND D. apply NoDup_incl_length; [exact ND|]. intros a I. destruct (in_dec Nat.eq_dec a adrs) as [J|J]; [exact J|exfalso].
  destruct (D a I) as [n Q]. apply Q. apply (U (upd a n h)). split; [cbn; apply upd_length|]. intros b Ib. cbn. rewrite nth_upd. destruct (Nat.eqb_spec a b); [subst; contradiction|reflexivity].
Qed.
Lemma upd_differs {X} i (v w : X) l : nth_error l i = Some v -> w <> v -> upd i w l <> l.
Proof. intros E D Q. pose proof (nth_upd w l i i) as U. rewrite Q, Nat.eqb_refl, E in U. congruence. Qed.

From Verif Require Proof_SList Proof_DList.
Section Lower.
Context {T St : Type}.
Variable zero : T.
Hypothesis two : forall v : T, exists w, w <> v.
Section S.
Import Model_SList Proof_SList.
Lemma slist_lower fr xs s adrs : Rel fr xs s -> uses (@slist_step T zero St LValues) s adrs \/ uses (@slist_step T zero St LIter) s adrs -> (length xs <= length adrs)%nat.
Proof.
  intros (l & <- & R) U. destruct s as [h hdr]. rewrite map_length, <- (map_length fst).
  assert (K : forall o, (o = LValues \/ o = LIter) -> forall a, In a (addrs l) -> exists n, fst (@slist_step T zero St o (upd a n h, hdr)) <> fst (@slist_step T zero St o (h, hdr))).
  { intros o O a I. apply In_nth_error in I as [i En]. unfold addrs in En. rewrite nth_error_map in En. destruct (nth_error l i) as [[a' v]|] eqn:E; [|discriminate]. injection En as ->.
    destruct (two v) as [w D]. pose proof R as (G & C & _). cbn [fst snd] in *. destruct (chain_nth _ _ _ _ _ _ C E) as [q Ea]. exists (mkSNode q w).
    assert (R' : rep fr (set_values l (upd i w (map snd l))) (upd a (mkSNode q w) h, hdr)).
    { eapply rep_values; eauto; [now rewrite upd_length, map_length| |eapply set_values_upd; eauto; apply G]. apply good_upd; auto. apply nth_error_In in E. apply (in_map fst) in E. exact E. }
    destruct (step_ok zero fr _ _ o (ex_intro _ l (conj eq_refl R))) as [E1 _]. destruct (step_ok zero fr _ _ o (ex_intro _ _ (conj eq_refl R'))) as [E2 _].
    rewrite E1, E2, set_values_snd by (now rewrite upd_length, map_length). assert (Q : upd i w (map snd l) <> map snd l) by (apply (upd_differs i v w); [rewrite nth_error_map, E; reflexivity|exact D]).
    destruct O as [-> | ->]; cbn; congruence. }
  destruct U as [U|U]; eapply uses_all; eauto; apply R.
Qed.
End S.
Section D.
Import Model_DList Proof_DList.
Lemma dlist_lower fr xs s adrs : Rel fr xs s -> uses (@dlist_step T zero St DIter) s adrs -> (length xs <= length adrs)%nat.
Proof.
  intros (l & <- & R) U. destruct s as [h hdr]. rewrite map_length, <- (map_length fst).
  assert (ND : NoDup (map fst l)). { destruct R as (_ & _ & R). destruct (d_head (snd (h, hdr))); [|subst l; constructor]. destruct R as ((_ & _ & _ & ND) & _). now inversion ND. }
  eapply uses_all; eauto. intros a I. apply In_nth_error in I as [i En]. rewrite nth_error_map in En. destruct (nth_error l i) as [[a' v]|] eqn:E; [|discriminate]. injection En as ->.
  destruct (two v) as [w D]. destruct hdr as [[hd|] k]; [|destruct R as (_ & _ & ->); destruct i; discriminate].
  pose proof R as (K & _ & (O & _ & _ & ND2) & LB). cbn [fst snd d_head] in *.
  assert (La : (a < length h)%nat) by (eapply open_lt; [exact O|]; apply nth_error_In in E; apply (in_map fst) in E; exact E).
  destruct (nth_error h a) as [n|] eqn:Ea; [|apply nth_error_None in Ea; lia]. exists (set_d_value w n).
  assert (EL : length (upd i w (map snd l)) = length l) by (now rewrite upd_length, map_length). destruct (combine_addrs l _ EL) as [EA EV].
  assert (R' : rep fr (combine (addrs l) (upd i w (map snd l))) (sv a w h, mkDList (Some hd) k)).
  { eapply rep_set; [exact R|reflexivity| |apply same_links_sv|].
    - apply keeps_sv; auto. apply LB. right. apply nth_error_In in E. apply (in_map fst) in E. exact E.
    - eapply vals_upd; eauto. eapply open_vals; exact O. }
  unfold sv in R'. rewrite Ea in R'.
  destruct (step_ok zero fr _ _ (@DIter T St) (ex_intro _ l (conj eq_refl R))) as [E1 _]. destruct (step_ok zero fr _ _ (@DIter T St) (ex_intro _ _ (conj eq_refl R'))) as [E2 _].
  rewrite E1, E2, EV. assert (Q : upd i w (map snd l) <> map snd l) by (apply (upd_differs i v w); [rewrite nth_error_map, E; reflexivity|exact D]). cbn. congruence.
Qed.
End D.
End Lower.
