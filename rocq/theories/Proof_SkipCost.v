(** Cost of the searches of a skip list. *)
From Coq Require Import Permutation Sorted.
From Verif Require Import BaseLemmas Spec Trace Spec_List Spec_Map Nodes Proof_Nodes Model_SkipList Proof_SkipList Proof_Map Proof_HeapLinear Proof_Draws Spec_SkipCost.

(** *** The counting searches do the same *)
Section Erase.
Context {K V : Type}.
Notation SP := (P (slnode K V) sklist).
Implicit Types hit stop : K -> bool.
Lemma plain_bind {S A B} (m : M S A) (k : A -> M S (B * Z)) (k' : A -> M S B) s : (forall a t, plain (k a) t = k' a t) -> plain (bind m k) s = bind m k' s.
Proof. intros H. unfold plain, bind in *. destruct (m s) as [[a| |] t]; cbn; auto. Qed.
Lemma scan_plain (hit stop : K -> bool) fuel : forall i prev cur s, plain (scan_count (V := V) hit stop fuel i prev cur) s = scan hit stop fuel i prev cur s.
Proof.
  induction fuel as [|fuel IH]; intros i prev cur s; [reflexivity|]. cbn [scan_count scan]. destruct (is_nil cur); [reflexivity|].
  apply plain_bind. intros k t. destruct (hit k); [reflexivity|]. destruct (stop k); [reflexivity|]. apply plain_bind. intros q u. rewrite <- IH.
  unfold plain, bind. destruct (scan_count hit stop fuel i cur q u) as [[[x n]| |] u']; reflexivity.
Qed.
Lemma descend_plain (hit stop : K -> bool) fuel lvl : forall prev s, plain (descend_count (V := V) hit stop fuel lvl prev) s = descend hit stop fuel lvl prev s.
Proof.
  induction lvl as [|i IH]; intros prev s; [reflexivity|]. cbn [descend_count descend]. apply plain_bind. intros cur t.
  unfold plain, bind. rewrite <- (scan_plain hit stop fuel i prev cur t). unfold plain. destruct (scan_count hit stop fuel i prev cur t) as [[[[q|q] n]| |] u]; cbn [omap fst snd]; auto.
  rewrite <- IH. unfold plain. destruct (descend_count hit stop fuel i q u) as [[[x m]| |] u']; reflexivity.
Qed.
Lemma descend_prevs_plain (hit stop : K -> bool) fuel prevs lvl : forall prev s, plain (descend_prevs_count (V := V) hit stop fuel prevs lvl prev) s = descend_prevs hit stop fuel prevs lvl prev s.
Proof.
  induction lvl as [|i IH]; intros prev s; [reflexivity|]. cbn [descend_prevs_count descend_prevs]. apply plain_bind. intros cur t.
  unfold plain, bind. rewrite <- (scan_plain hit stop fuel i prev cur t). unfold plain. destruct (scan_count hit stop fuel i prev cur t) as [[[[q|q] n]| |] u]; cbn [omap fst snd]; auto.
  destruct (prevs_set prevs i q u) as [[[]| |] u2]; cbn; auto.
  rewrite <- IH. unfold plain. destruct (descend_prevs_count hit stop fuel prevs i q u2) as [[[x m]| |] u']; reflexivity.
Qed.
Lemma impl_plain (impl : @slimpl K V) cnt lt : counted impl cnt lt -> forall key s,
  plain (findNode_count cnt key) s = findNode impl key s /\ plain (lowerBound_count cnt key) s = lowerBound impl key s /\
  plain (upperBound_count cnt key) s = upperBound impl key s /\ plain (findInsertPoint_count cnt key) s = findInsertPoint impl key s /\
  plain (findRemovePoint_count cnt key) s = findRemovePoint impl key s.
Proof.
  assert (G : forall A B (m : SP (A * Z)) (m' : SP A) (k : A * Z -> SP (B * Z)) (k' : A -> SP B) s, (forall t, plain m t = m' t) -> (forall a t, plain (k a) t = k' (fst a) t) -> plain (bind m k) s = bind m' k' s).
  { intros A B m m' k k' s Hm Hk. unfold plain, bind in *. rewrite <- Hm. destruct (m s) as [[a| |] t]; cbn; auto. }
  intros [(eqb & -> & -> & _)|(cmp & -> & -> & _)] key s; cbn [findNode lowerBound upperBound findInsertPoint findRemovePoint findNode_count lowerBound_count upperBound_count findInsertPoint_count findRemovePoint_count implOrdered implFunc countOrdered countFunc].
  - assert (D : forall eq t, plain (ord_doFindNode_count (V := V) lt eqb key eq) t = ord_doFindNode lt eqb key eq t).
    { intros eq t. unfold ord_doFindNode_count, ord_doFindNode. do 3 (apply plain_bind; intros ? ?). apply G; [intros; apply descend_plain|]. intros [[q|q] n] u; cbn [fst snd]; [reflexivity|]. destruct eq; [reflexivity|].
      unfold plain, bind. destruct (ld_next q 0 u) as [[?| |] ?]; reflexivity. }
    split; [apply D|]. split; [apply D|]. split; [|split].
    + unfold ord_upperBound_count, ord_upperBound. apply G; [intros; apply D|]. intros [p n] u; cbn [fst snd]. destruct (is_nil p); [reflexivity|]. apply plain_bind. intros k v. destruct (eqb k key); [|reflexivity].
      unfold plain, bind. destruct (ld_next p 0 v) as [[?| |] ?]; reflexivity.
    + unfold ord_findInsertPoint_count, ord_findInsertPoint. do 4 (apply plain_bind; intros ? ?). apply G; [intros; apply descend_prevs_plain|]. intros [[q|q] n] u; reflexivity.
    + unfold ord_findRemovePoint_count, ord_findRemovePoint. apply G.
      * intros t. unfold ord_findPrevNodes_count, ord_findPrevNodes. do 4 (apply plain_bind; intros ? ?). apply G; [intros; apply descend_prevs_plain|]. reflexivity.
      * intros [p n] u; cbn [fst snd]. do 2 (apply plain_bind; intros ? ?). destruct (is_nil _); [reflexivity|]. apply plain_bind. intros k v. destruct (negb (eqb k key)); reflexivity.
  - assert (D : forall t, plain (fn_lowerBound_count (V := V) cmp key) t = fn_lowerBound cmp key t).
    { intros t. unfold fn_lowerBound_count, fn_lowerBound. do 3 (apply plain_bind; intros ? ?). apply G; [intros; apply descend_plain|]. intros [[q|q] n] u; cbn [fst snd]; [reflexivity|].
      unfold plain, bind. destruct (ld_next q 0 u) as [[?| |] ?]; reflexivity. }
    split; [|split; [apply D|]]; [|split; [|split]].
    + unfold fn_findNode_count, fn_findNode. apply G; [intros; apply D|]. intros [p n] u; cbn [fst snd]. destruct (is_nil p); [reflexivity|]. apply plain_bind. intros k v. destruct (cmp k key =? 0); reflexivity.
    + unfold fn_upperBound_count, fn_upperBound. apply G; [intros; apply D|]. intros [p n] u; cbn [fst snd]. destruct (is_nil p); [reflexivity|]. apply plain_bind. intros k v. destruct (cmp k key =? 0); [|reflexivity].
      unfold plain, bind. destruct (ld_next p 0 v) as [[?| |] ?]; reflexivity.
    + unfold fn_findInsertPoint_count, fn_findInsertPoint. do 4 (apply plain_bind; intros ? ?). apply G; [intros; apply descend_prevs_plain|]. intros [[q|q] n] u; reflexivity.
    + unfold fn_findRemovePoint_count, fn_findRemovePoint. apply G.
      * intros t. unfold fn_findPrevNodes_count, fn_findPrevNodes. do 4 (apply plain_bind; intros ? ?). apply G; [intros; apply descend_prevs_plain|]. reflexivity.
      * intros [p n] u; cbn [fst snd]. do 2 (apply plain_bind; intros ? ?). destruct (is_nil _); [reflexivity|]. apply plain_bind. intros k v. destruct (negb (cmp k key =? 0)); reflexivity.
Qed.
(** The searches that keep prevs read the same keys as those that do not. *)
Lemma scan_heap (hit stop : K -> bool) fuel : forall i prev cur h, exists o, forall l', scan_count (V := V) hit stop fuel i prev cur (h, l') = (o, (h, l')).
Proof.
  induction fuel as [|fuel IH]; intros i prev cur h; cbn [scan_count]; [eexists; reflexivity|]. destruct (is_nil cur) eqn:En; [eexists; reflexivity|].
  destruct cur as [a|]; [|discriminate]. destruct (nth_error h a) as [n|] eqn:Ea; [|exists Panic; intros l'; unfold ld_key, bind, pload; cbn; now rewrite Ea].
  assert (Ek : forall l', ld_key (Some a) (h, l') = (Ok (n_key n), (h, l'))) by (intros l'; unfold ld_key, bind, pload; cbn; now rewrite Ea).
  destruct (hit (n_key n)) eqn:E1; [exists (Ok (inl (Some a), 1)); intros l'; rewrite (bind_eq _ _ _ _ _ (Ek l')), E1; reflexivity|].
  destruct (stop (n_key n)) eqn:E2; [exists (Ok (inr prev, 1)); intros l'; rewrite (bind_eq _ _ _ _ _ (Ek l')), E1, E2; reflexivity|].
  destruct (nth_error (n_next n) i) as [q|] eqn:E3.
  - assert (Ex : forall l', ld_next (Some a) i (h, l') = (Ok q, (h, l'))) by (intros l'; unfold ld_next, bind, pload; cbn; now rewrite Ea, E3).
    destruct (IH i (Some a) q h) as [o Ho]. exists (match o with Ok r => Ok (fst r, snd r + 1) | Panic => Panic | NoFuel => NoFuel end). intros l'.
    rewrite (bind_eq _ _ _ _ _ (Ek l')), E1, E2, (bind_eq _ _ _ _ _ (Ex l')). unfold bind. rewrite Ho. destruct o; reflexivity.
  - assert (Ex : forall l', ld_next (Some a) i (h, l') = (Panic, (h, l'))) by (intros l'; unfold ld_next, bind, pload; cbn; now rewrite Ea, E3).
    exists Panic. intros l'. rewrite (bind_eq _ _ _ _ _ (Ek l')), E1, E2. unfold bind. now rewrite Ex.
Qed.
Lemma descend_heap (hit stop : K -> bool) fuel lvl : forall prev h, exists o, forall l', descend_count (V := V) hit stop fuel lvl prev (h, l') = (o, (h, l')) /\
  forall prevs, (lvl <= prevs)%nat -> fst (descend_prevs_count hit stop fuel prevs lvl prev (h, l')) = o.
Proof.
  induction lvl as [|i IH]; intros prev h; cbn [descend_count descend_prevs_count]; [eexists; split; reflexivity|].
  assert (En : exists o, forall l', ld_next prev i (h, l') = (o, (h, l'))).
  { destruct prev as [a|]; [|eexists; reflexivity]. unfold ld_next, bind, pload. cbn. destruct (nth_error h a) as [n|]; [|eexists; reflexivity]. destruct (nth_error (n_next n) i); eexists; reflexivity. }
  destruct En as [[cur| |] En]; [|exists Panic; intros l'; unfold bind; rewrite En; auto|exists NoFuel; intros l'; unfold bind; rewrite En; auto].
  destruct (scan_heap hit stop fuel i prev cur h) as [o Ho]. destruct o as [[[q|q] n]| |].
  - exists (Ok (inl q, n)). intros l'. unfold bind. rewrite En, Ho. auto.
  - destruct (IH q h) as [o Ho2]. exists (match o with Ok r => Ok (fst r, n + snd r) | Panic => Panic | NoFuel => NoFuel end). intros l'.
    split.
    + rewrite (bind_eq _ _ _ _ _ (En l')), (bind_eq _ _ _ _ _ (Ho l')). cbn [fst snd]. unfold bind. rewrite (proj1 (Ho2 l')). destruct o; reflexivity.
    + intros prevs L. rewrite (bind_eq _ _ _ _ _ (En l')), (bind_eq _ _ _ _ _ (Ho l')). cbn [fst snd].
      assert (Es : prevs_set (K := K) (V := V) prevs i q (h, l') = (Ok tt, (h, set_sl_prevs (upd i q (sl_prevs l')) l'))).
      { unfold prevs_set. rewrite bind_hget. assert (Nat.ltb i prevs = true) as -> by (apply Nat.ltb_lt; lia). reflexivity. }
      rewrite (bind_eq _ _ _ _ _ Es). pose proof (proj2 (Ho2 (set_sl_prevs (upd i q (sl_prevs l')) l')) prevs ltac:(lia)) as E.
      unfold bind. destruct (descend_prevs_count hit stop fuel prevs i q _) as [o2 s2]. cbn [fst] in E. subst o2. destruct o; reflexivity.
  - exists Panic. intros l'. unfold bind. rewrite En, Ho. auto.
  - exists NoFuel. intros l'. unfold bind. rewrite En, Ho. auto.
Qed.
(** The keys read by the descent of a whole list. *)
Definition keys_read (hit stop : K -> bool) (s : list (slnode K V) * sklist) : Z := reads (fuel <- heap_fuel ;; prev <- hget sl_head ;; level <- hget sl_level ;; descend_count hit stop fuel level prev) s.
End Erase.

Fixpoint sum_moves (n : nat) (hs : list nat) : Z := match n with O => 0 | S n' => sum_moves n' hs + moves n hs end.
Lemma moves_nonneg l hs : 0 <= moves l hs.
Proof. induction hs as [|x hs IH]; cbn [moves]; [lia|]. destruct (Nat.ltb l x); [lia|]. destruct (Nat.eqb x l); cbn [bit]; lia. Qed.
Lemma sum_moves_nonneg n hs : 0 <= sum_moves n hs.
Proof. induction n as [|n IH]; cbn [sum_moves]; [lia|]. pose proof (moves_nonneg (S n) hs). lia. Qed.
Lemma moves_app l a b : (forall x, In x a -> (x <= l)%nat) -> (match b with [] => True | y :: _ => (l < y)%nat end) -> moves l (a ++ b) = zlen (filter (fun x => Nat.eqb x l) a).
Proof.
  intros Ha Hb. induction a as [|x a IH]; cbn [app moves filter].
  - destruct b as [|y b]; auto. cbn [moves filter]. destruct (Nat.ltb_spec l y); [reflexivity|lia].
  - pose proof (Ha x (or_introl eq_refl)). destruct (Nat.ltb_spec l x); [lia|]. rewrite IH by (intros; apply Ha; now right). unfold zlen. destruct (Nat.eqb x l); cbn [bit length]; lia.
Qed.
Lemma filter_rev {A} (f : A -> bool) l : filter f (rev l) = rev (filter f l).
Proof. induction l as [|x l IH]; cbn; auto. rewrite filter_app, IH. cbn. destruct (f x); [reflexivity|apply app_nil_r]. Qed.
(** *** Keys read by one search, in terms of the heights of the passed nodes *)
Section Count.
Context {K V : Type}.
Notation cell := (@cell K V).
Notation heap := (list (slnode K V)).
Variables hit stop : K -> bool.
Lemma scan_count_ok (h : heap) l i D : forall C fuel prev, chain h i prev (C ++ D) -> Forall (cellok h) (C ++ D) -> (length (C ++ D) < fuel)%nat ->
  Forall (pass hit stop) C -> (forall c, In c D -> hit (ck c) = true \/ stop (ck c) = true) ->
  exists r n, scan_count hit stop fuel i (Some prev) (firstp (C ++ D)) (h, l) = (Ok (r, n), (h, l)) /\ 0 <= n <= zlen C + 1 /\
    ((exists q, r = inl q) \/ r = inr (Some (lasta prev C))).
Proof.
  induction C as [|c C IH]; intros fuel prev Ch F L P B; (destruct fuel as [|fuel]; [cbn in L; lia|]).
  - cbn [app] in *. unfold zlen. cbn [length]. destruct D as [|d D]; cbn [scan_count firstp is_nil].
    + exists (inr (Some prev)), 0. split; [reflexivity|]. split; [lia|now right].
    + inversion F; subst. rewrite (bind_eq _ _ _ _ _ (ld_key_ok h l _ _ _ _ H1)). destruct (hit (ck d)) eqn:Eh; [exists (inl (Some (ca d))), 1; split; [reflexivity|]; split; [lia|left; eauto]|].
      destruct (B d (or_introl eq_refl)) as [B1|B1]; [congruence|]. rewrite B1. exists (inr (Some prev)), 1. split; [reflexivity|]. split; [lia|now right].
  - cbn [app firstp scan_count is_nil] in *. inversion F; subst. inversion P as [|? ? [P1 P2] P3]; subst. rewrite (bind_eq _ _ _ _ _ (ld_key_ok h l _ _ _ _ H1)), P1, P2.
    apply chain_cons in Ch as [N Ch]. rewrite (bind_eq _ _ _ _ _ (ld_next_ok h l _ _ _ (chain_first _ _ _ _ Ch))).
    destruct (IH fuel (ca c) Ch H2) as (r & n & E & Bn & Hr); auto; [cbn in L; lia|]. rewrite (bind_eq _ _ _ _ _ E). exists r, (n + 1). split; [reflexivity|].
    unfold zlen in *. cbn [length]. split; [lia|]. exact Hr.
Qed.

Lemma tall_length i (X : list cell) : (length (tall i X) <= length X)%nat.
Proof. unfold tall. induction X as [|b X IH]; cbn [filter length]; [lia|]. destruct (Nat.ltb i (ch b)); cbn [length]; lia. Qed.
Lemma tall_last i (X : list cell) : (forall c, In c X -> (ch c <= S i)%nat) -> exists X1 X2, X = X1 ++ X2 /\ tall i X1 = tall i X /\ (forall c, In c X2 -> (ch c <= i)%nat) /\
  (X1 = [] \/ exists X0 c, X1 = X0 ++ [c] /\ ch c = S i) /\ forall a : nat, lasta a X1 = lasta a (tall i X).
Proof.
  intros HX. induction X as [|c X IH] using rev_ind; [exists [], []; repeat split; auto; intros c []|].
  rewrite tall_app. cbn [tall filter]. destruct (Nat.ltb_spec i (ch c)) as [L|L].
  - exists (X ++ [c]), []. rewrite app_nil_r. split; auto. split; [rewrite tall_app; cbn [tall filter]; destruct (Nat.ltb_spec i (ch c)); [auto|lia]|]. split; [intros d []|]. split.
    + right. exists X, c. split; auto. pose proof (HX c ltac:(apply in_app_iff; right; now left)). lia.
    + intros a. now rewrite !lasta_app.
  - destruct IH as (X1 & X2 & -> & T1 & S2 & E1 & La); [intros d Id; apply HX; apply in_app_iff; now left|]. exists X1, (X2 ++ [c]). rewrite app_assoc, app_nil_r. split; auto. split; auto. split; [|split; auto].
    intros d Id. apply in_app_iff in Id as [Id|[<-|[]]]; auto.
Qed.

Context (h : heap) (hd : nat) (ps P Q : list cell).
Context (Hcells : Forall (cellok h) ps) (Hch : forall i, (i < skipListMaxLevel)%nat -> chain h i hd (tall i ps)) (Hfuel : (length ps < S (length h))%nat).
Context (Eps : ps = P ++ Q) (HP : Forall (pass hit stop) P) (HQ : forall c, In c Q -> hit (ck c) = true \/ stop (ck c) = true).

Lemma descend_count_ok l lvl : forall A P', P = A ++ P' -> ends (S lvl) A -> (forall c, In c P' -> (ch c <= lvl)%nat) -> (lvl <= skipListMaxLevel)%nat ->
  exists r n, descend_count hit stop (S (length h)) lvl (Some (lasta hd A)) (h, l) = (Ok (r, n), (h, l)) /\
    0 <= n <= Z.of_nat lvl + sum_moves lvl (rev (map ch P)).
Proof using Hcells Hch Hfuel Eps HP HQ.
  induction lvl as [|i IH]; intros A P' EP En Hh Ll; cbn [descend_count].
  - exists (inr (Some (lasta hd A))), 0. split; [reflexivity|]. cbn. lia.
  - pose proof (Hch i Ll) as Ch. rewrite Eps, EP, !tall_app, <- app_assoc in Ch. apply chain_app in Ch as [_ Ch]. rewrite (ends_tall (S (S i))) in Ch by (auto; lia).
    rewrite (bind_eq _ _ _ _ _ (ld_next_ok h l _ _ _ (chain_first _ _ _ _ Ch))).
    destruct (scan_count_ok h l i (tall i Q) (tall i P') (S (length h)) (lasta hd A) Ch) as (r & n & E & Bn & Hr).
    { rewrite <- tall_app. apply Forall_forall. intros c I. apply tall_in in I as [I _]. rewrite Forall_forall in Hcells. apply Hcells. rewrite Eps, EP, <- app_assoc. apply in_app_iff. auto. }
    { rewrite <- tall_app. pose proof (tall_length i (P' ++ Q)) as K1. rewrite Eps, EP, !app_length in Hfuel. rewrite app_length in K1. lia. }
    { apply Forall_forall. intros c I. apply tall_in in I as [I _]. rewrite Forall_forall in HP. apply HP. rewrite EP. apply in_app_iff. auto. }
    { intros c I. apply tall_in in I as [I _]. auto. }
    assert (Em : moves (S i) (rev (map ch P)) = zlen (tall i P')).
    { rewrite EP, map_app, rev_app_distr, moves_app.
      - rewrite filter_rev. unfold zlen. rewrite rev_length. f_equal. clear - Hh. unfold tall. induction P' as [|c X IH]; cbn [map filter]; auto. pose proof (Hh c (or_introl eq_refl)).
        destruct (Nat.eqb_spec (ch c) (S i)), (Nat.ltb_spec i (ch c)); try lia; cbn [length]; rewrite IH; auto; intros; apply Hh; now right.
      - intros x I. apply in_rev, in_map_iff in I as (c & <- & I). auto.
      - destruct En as [->|(A' & c & -> & Lc)]; cbn; auto. rewrite map_app, rev_app_distr. cbn. lia. }
    rewrite (bind_eq _ _ _ _ _ E). cbn [sum_moves]. rewrite Em. pose proof (sum_moves_nonneg i (rev (map ch P))).
    destruct Hr as [(q & ->)| ->]; cbn [fst snd].
    + exists (inl q), n. split; [reflexivity|]. lia.
    + destruct (tall_last i P' Hh) as (X1 & X2 & EX & T1 & S2 & E1 & La).
      destruct (IH (A ++ X1) X2) as (r2 & n2 & E2 & B2); [rewrite EP, EX; apply app_assoc| |auto|lia|].
      { destruct E1 as [->|(X0 & c & -> & Hc)]; [rewrite app_nil_r; now apply ends_le with (S (S i)); [lia|]|]. right. exists (A ++ X0), c. rewrite app_assoc. split; auto. lia. }
      rewrite lasta_app, La in E2. rewrite (bind_eq _ _ _ _ _ E2). exists r2, (n + n2). split; [reflexivity|]. lia.
Qed.
End Count.

(** *** The heights of the nodes, call by call *)
Section Shape.
Context {K : Type}.
Variable lt : K -> K -> bool.
Definition shape_step {V St X} (new : Z -> X) (o : mop K V St) (m : list (K * X)) : list (K * X) :=
  match o with
  | MInsert k _ _ => if has lt k m then m else insert lt k (new (zlen m)) m
  | MRemove k => remove lt k m
  | MClear => []
  | _ => m
  end.
Definition vmap {X Y} (f : X -> Y) (m : list (K * X)) : list (K * Y) := map (fun p => (fst p, f (snd p))) m.
Lemma vmap_has {X Y} (f : X -> Y) k m : has lt k (vmap f m) = has lt k m.
Proof. unfold has, vmap. induction m as [|p m IH]; cbn; auto. now rewrite IH. Qed.
Lemma vmap_filter {X Y} (f : X -> Y) (g : K -> bool) m : filter (fun p => g (fst p)) (vmap f m) = vmap f (filter (fun p => g (fst p)) m).
Proof. unfold vmap. induction m as [|p m IH]; cbn [map filter fst]; auto. destruct (g (fst p)); cbn; now rewrite IH. Qed.
Lemma vmap_len {X Y} (f : X -> Y) m : zlen (vmap f m) = zlen m.
Proof. unfold zlen, vmap. now rewrite map_length. Qed.
Lemma vmap_shape {V St X Y} (f : X -> Y) new (o : mop K V St) m : shape_step (fun n => f (new n)) o (vmap f m) = vmap f (shape_step new o m).
Proof.
  destruct o; cbn [shape_step]; auto.
  - rewrite vmap_has, vmap_len. destruct (has lt k m) eqn:Hk; auto. unfold insert. rewrite vmap_has, Hk. rewrite (vmap_filter f (fun x => lt x k)), (vmap_filter f (fun x => lt k x)).
    unfold vmap. now rewrite map_app.
  - unfold remove. apply (vmap_filter f (fun x => negb (eqv lt x k))).
Qed.
End Shape.

Section Heights.
Context {K V : Type}.
Notation cell := (@cell K V).
Variables (impl : @slimpl K V) (lt : K -> K -> bool).
Hypothesis Hk : kind impl lt.
Definition hts (ps : list cell) : list (K * nat) := map (fun c => (ck c, ch c)) ps.
Lemma hts_app X Y : hts (X ++ Y) = hts X ++ hts Y.
Proof. apply map_app. Qed.
Lemma hts_keys (Q : K -> Prop) (X : list cell) : Forall (fun p => Q (fst p)) (kvs X) -> Forall (fun p => Q (fst p)) (hts X).
Proof. unfold kvs, hts. rewrite !Forall_map. auto. Qed.
Lemma hts_shape X Y : same_shape X Y -> hts X = hts Y.
Proof.
  unfold same_shape, hts. revert Y. induction X as [|x X IH]; intros [|y Y] E; try discriminate; auto. cbn in E. injection E as E1 E2 E3 E. cbn. rewrite (IH Y E). congruence.
Qed.
Lemma step_heights {St} h0 hd ps s (o : mop K V St) (new : Z -> nat) : rep h0 hd ps s -> ksorted lt (kvs ps) ->
  (forall k v r, o = MInsert k v r -> forall n, new n = randomLevel r n) -> exists ps',
  rep h0 hd ps' (snd (map_step impl o s)) /\ ksorted lt (kvs ps') /\ hts ps' = shape_step lt new o (hts ps).
Proof using Hk.
  intros R S Hn. destruct (kind_spec _ _ Hk) as (eqk & gtk & SP & SW & Eq & Gt).
  assert (any_ok : forall m : list (K * V), Forall (fun p => (fun _ : K => true) (fst p) = true) m) by (intros m; apply Forall_forall; auto).
  assert (Go : good_op (fun _ : K => true) o = true) by now destruct o.
  destruct (keeps_shape o) eqn:Ko.
  { destruct (step_cells eqk gtk impl SP lt SW (fun _ => true) (fun a b _ _ => Eq a b) (fun a b _ _ => Gt a b) h0 hd ps s o R (any_ok _) Go S) as (ps' & _ & _ & R' & S' & _ & Sh).
    exists ps'. split; auto. split; auto. rewrite (hts_shape _ _ (Sh Ko)). destruct o; try discriminate Ko; reflexivity. }
  assert (Sn : forall A B (f : A -> B) (p : P (slnode K V) sklist A) s, snd (show f p s) = snd (p s)) by (intros A B f p t; unfold show; now destruct (p t)).
  destruct s as [h l]. destruct o; try discriminate Ko; cbn [map_step shape_step]; rewrite Sn; clear Sn Ko Go.
  - destruct (Insert_ok eqk gtk impl SP h0 hd ps h l k v r R) as [(c & h' & l' & I & Hc & E & R')|(A & c & B & h' & l' & -> & Pt & Ek & Ev & Eh & NI & E & R')]; rewrite E; cbn [snd].
    + exists (put (ca c) v ps). split; auto. pose proof (put_shape (ca c) v ps) as Sh. rewrite (hts_shape _ _ Sh). split; [apply (ksorted_keys lt (kvs ps)); auto; symmetry; now apply shape_keys|].
      destruct (rep_in_split _ _ I) as (A & B & ->). rewrite Eq in Hc. destruct (found_pos lt SW k A c B S Hc) as (H1 & H2 & H3). apply (hts_keys (fun x => _ x _ = true)) in H1, H2. apply (hts_keys (fun x => _ _ x = true)) in H3.
      change (c :: B) with ([c] ++ B). rewrite !hts_app. rewrite (pos_has lt k _ _ _ H1 H2 H3). reflexivity.
    + destruct (parts_pos eqk gtk lt SW (fun _ => true) (fun a b _ _ => Eq a b) (fun a b _ _ => Gt a b) k A B (any_ok _) eq_refl S Pt) as [H1 H3]. exists (A ++ c :: B). split; auto. split.
      * rewrite kvs_app in *. apply SS_app_inv in S as (S1 & S2 & S3). apply SS_app; auto.
        -- cbn [kvs map]. constructor; auto. rewrite Ek. cbn. exact H3.
        -- rewrite Forall_forall in S3, H1 |- *. intros p Ip. constructor; [cbn; rewrite Ek; now apply H1|now apply S3].
      * apply (hts_keys (fun x => lt x k = true)) in H1. apply (hts_keys (fun x => lt k x = true)) in H3. rewrite !hts_app.
        pose proof (pos_has lt k (hts A) [] (hts B) H1 ltac:(constructor) H3) as Eh1. cbn [app] in Eh1. rewrite Eh1.
        pose proof (pos_insert lt SW k (hts A) [] (hts B) H1 ltac:(constructor) H3 (new (zlen (hts A ++ hts B))) eq_refl) as Ei. cbn [app] in Ei. rewrite Ei.
        cbn [hts map]. rewrite Ek, Eh. rewrite (Hn k v r eq_refl). f_equal. f_equal. f_equal. f_equal. pose proof (r_len _ _ _ _ R) as Le. cbn in Le. rewrite Le. unfold zlen, hts. now rewrite <- map_app, map_length.
  - destruct (Remove_ok eqk gtk impl SP h0 hd ps h l k R) as (A & B & h' & l' & -> & Rp & _ & H).
    destruct (remove_parts_pos eqk gtk lt SW (fun _ => true) (fun a b _ _ => Eq a b) (fun a b _ _ => Gt a b) k A B (any_ok _) eq_refl S Rp) as [H1 H2].
    apply (hts_keys (fun x => lt x k = true)) in H1.
    assert (Same : Forall (fun p => lt k (fst p) = true) (kvs B) -> remove lt k (hts (A ++ B)) = hts (A ++ B)).
    { intros H3. apply (hts_keys (fun x => lt k x = true)) in H3. rewrite hts_app. pose proof (pos_remove lt k (hts A) [] (hts B) H1 ltac:(constructor) H3) as E2. exact E2. }
    destruct B as [|c B]; [destruct H as [E R']; rewrite E; exists (A ++ []); split; auto; split; auto; symmetry; apply Same; constructor|].
    destruct (eqk (ck c) k); [|destruct H as [E R']; rewrite E; exists (A ++ c :: B); split; auto; split; auto; symmetry; apply Same; auto].
    destruct H as (E & R' & _). rewrite E. exists (A ++ B). split; auto. destruct H2 as [H2 H3]. split.
    + rewrite kvs_app in *. apply SS_app_inv in S as (S1 & S2 & S3). cbn [kvs map] in S2, S3. inversion S2; subst. apply SS_app; auto. eapply Forall_imp; [|exact S3]. intros p F. now inversion F.
    + apply (hts_keys (fun x => eqv lt x k = true)) in H2. apply (hts_keys (fun x => lt k x = true)) in H3. change (c :: B) with ([c] ++ B). rewrite !hts_app. symmetry. exact (pos_remove lt k _ _ _ H1 H2 H3).
  - destruct (Clear_ok h0 hd ps h l R) as (s' & E & R'). rewrite E. exists []. split; auto. split; [constructor|reflexivity].
Qed.
End Heights.

(** *** Which draw made which node: independent of the numbers drawn *)
Section Ghost.
Context {K V St : Type}.
Variable lt : K -> K -> bool.
Hypothesis SW : strict_weak lt.
Fixpoint ghosts (a : nat) (ops : list (mop K V St)) (m : list (K * slot)) : list (K * slot) :=
  match ops with [] => m | o :: ops' => ghosts (S a) ops' (shape_step lt (fun n => (a, n)) o m) end.
Definition idx (p : K * slot) : nat := fst (snd p).
Definition early (t : Z) (p : K * slot) : bool := snd (snd p) <? t.
Definition ghost_ok (a : nat) (m : list (K * slot)) : Prop :=
  (forall i, In i (map idx m) -> (i < a)%nat) /\ NoDup (map idx m) /\ (forall t, 0 <= t -> count (early t) m <= t).
Lemma perm_split {A} (f g : A -> bool) (m : list A) : (forall x, In x m -> g x = negb (f x)) -> Permutation (filter f m ++ filter g m) m.
Proof.
  induction m as [|x m IH]; intros H; cbn [filter app]; auto. rewrite (H x (or_introl eq_refl)). assert (IH' := IH (fun y I => H y (or_intror I))).
  destruct (f x); cbn [negb app]; [now constructor|]. rewrite <- Permutation_middle. now constructor.
Qed.
Lemma insert_perm {X} k (x : X) m : has lt k m = false -> Permutation (insert lt k x m) ((k, x) :: m).
Proof using SW.
  intros H. unfold insert. rewrite H. rewrite <- Permutation_middle. constructor. apply perm_split. intros p I.
  assert (E : eqv lt (fst p) k = false). { unfold has in H. destruct (eqv lt (fst p) k) eqn:E; auto. assert (existsb (fun p => eqv lt (fst p) k) m = true) by (apply existsb_exists; eauto). congruence. }
  unfold eqv in E. destruct (lt (fst p) k) eqn:E1; [now apply lt_asym|]. cbn in *. now destruct (lt k (fst p)).
Qed.
Lemma count_perm {A} (f : A -> bool) l l' : Permutation l l' -> count f l = count f l'.
Proof. induction 1; rewrite ?count_cons; lia. Qed.
Lemma count_filter {A} (f g : A -> bool) l : count f (filter g l) <= count f l.
Proof. induction l as [|x l IH]; cbn [filter]; [lia|]. rewrite (count_cons f x l). destruct (g x); [rewrite count_cons; lia|]. destruct (f x); cbn [bit]; lia. Qed.
Lemma count_len {A} (f : A -> bool) l : 0 <= count f l <= zlen l.
Proof. induction l as [|x l IH]; [cbn; lia|]. rewrite count_cons. unfold zlen in *. cbn [length]. destruct (f x); cbn [bit]; lia. Qed.
Lemma ghost_filter a f m : ghost_ok a m -> ghost_ok (S a) (filter f m).
Proof.
  intros (H1 & H2 & H3). split; [|split].
  - intros i I. apply in_map_iff in I as (p & <- & I). apply filter_In in I as [I _]. assert (idx p < a)%nat by (apply H1; now apply in_map). lia.
  - clear - H2. induction m as [|p m IH]; cbn; [constructor|]. inversion H2; subst. destruct (f p); [|now apply IH]. cbn. constructor; [|now apply IH].
    intros I. apply H1. apply in_map_iff in I as (q & Eq & I). apply filter_In in I as [I _]. rewrite <- Eq. now apply in_map.
  - intros t Ht. pose proof (count_filter (early t) f m). specialize (H3 t Ht). lia.
Qed.
Lemma ghost_next a m : ghost_ok a m -> ghost_ok (S a) m.
Proof. intros (H1 & H2 & H3). split; [|split; auto]. intros i I. specialize (H1 i I). lia. Qed.
Lemma ghost_step a (o : mop K V St) m : ghost_ok a m -> ghost_ok (S a) (shape_step lt (fun n => (a, n)) o m).
Proof using SW.
  intros G. destruct o; cbn [shape_step]; try (now apply ghost_next).
  - destruct (has lt k m) eqn:E; [apply ghost_next; exact G|]. pose proof (insert_perm k (a, zlen m) m E) as P. destruct G as (H1 & H2 & H3). split; [|split].
    + intros i I. apply (Permutation_in i (Permutation_map idx P)) in I. destruct I as [<-|I]; [cbn; lia|]. specialize (H1 i I). lia.
    + apply (Permutation_NoDup (Permutation_map idx (Permutation_sym P))). cbn. constructor; auto. intros I. specialize (H1 a I). lia.
    + intros t Ht. rewrite (count_perm _ _ _ P), count_cons. unfold early at 1. cbn [snd]. pose proof (count_len (early t) m). specialize (H3 t Ht).
      destruct (Z.ltb_spec (zlen m) t); cbn [bit]; lia.
  - now apply ghost_filter.
  - split; [intros i []|]. split; [constructor|]. intros t Ht. cbn. lia.
Qed.
Lemma ghosts_ok ops : forall a m, ghost_ok a m -> ghost_ok (a + length ops) (ghosts a ops m).
Proof using SW.
  induction ops as [|o ops IH]; intros a m G; cbn [ghosts length]; [now rewrite Nat.add_0_r|]. rewrite Nat.add_succ_r. apply (IH (S a)). now apply ghost_step.
Qed.
Lemma shape_with {X} (new : Z -> X) (o : mop K V St) r m : shape_step lt new match o with MInsert k v _ => MInsert k v r | _ => o end m = shape_step lt new o m.
Proof. now destruct o. Qed.
Lemma spec_with o r (m : list (K * V)) : map_spec lt match o with MInsert k v _ => MInsert k v r | _ => o end m = map_spec (St := St) lt o m.
Proof. now destruct o. Qed.
Lemma run_with (ops : list (mop K V St)) : forall rs m, run (map_spec lt) (with_draws ops rs) m = run (map_spec lt) ops m.
Proof.
  induction ops as [|o ops IH]; intros [|r rs] m; cbn [with_draws run]; auto. rewrite spec_with. destruct (map_spec lt o m) as [x m']. now rewrite IH.
Qed.
End Ghost.

Section Reach.
Context {K V St : Type}.
Variables (impl : @slimpl K V) (lt : K -> K -> bool).
Hypothesis Hk : kind impl lt.
Lemma run_heights (rho : nat -> Z) h0 hd (ops : list (mop K V St)) : forall a g ps s, rep h0 hd ps s -> ksorted lt (kvs ps) -> hts ps = vmap (height rho) g ->
  exists ps', rep h0 hd ps' (snd (run (map_step impl) (with_draws ops (map rho (seq a (length ops)))) s)) /\ ksorted lt (kvs ps') /\ hts ps' = vmap (height rho) (ghosts lt a ops g).
Proof using Hk.
  induction ops as [|o ops IH]; intros a g ps s R S H; cbn [length seq map with_draws run ghosts]; [exists ps; auto|].
  set (o' := match o with MInsert k v _ => MInsert k v (rho a) | _ => o end).
  destruct (step_heights impl lt Hk h0 hd ps s o' (fun n => height rho (a, n)) R S) as (ps1 & R1 & S1 & H1).
  { intros k v r E n. unfold o' in E. destruct o; try discriminate E. injection E as <- <- <-. reflexivity. }
  unfold o' in H1. rewrite shape_with, H in H1. rewrite (vmap_shape lt (height rho) (fun n => (a, n))) in H1.
  destruct (map_step impl o' s) as [x s1]. cbn [snd] in R1. destruct (IH (Datatypes.S a) _ ps1 s1 R1 S1 H1) as (ps2 & R2 & S2 & H2).
  exists ps2. destruct (run (map_step impl) (with_draws ops (map rho (seq (Datatypes.S a) (length ops)))) s1). auto.
Qed.
End Reach.

(** *** The cost of a search in a reachable state *)
Section Cost.
Context {K V : Type}.
Notation cell := (@cell K V).
Variable lt : K -> K -> bool.
Hypothesis SW : strict_weak lt.
Fixpoint sum_levels (n : nat) (f : nat -> Z) : Z := match n with O => 0 | S n' => sum_levels n' f + f n end.
Lemma sum_levels_le n f g : (forall l, (1 <= l <= n)%nat -> f l <= g l) -> sum_levels n f <= sum_levels n g.
Proof. induction n as [|n IH]; cbn [sum_levels]; intros H; [lia|]. pose proof (H (S n) ltac:(lia)). assert (sum_levels n f <= sum_levels n g) by (apply IH; intros; apply H; lia). lia. Qed.
Lemma at_least_pos l hs x : In x hs -> (l <= x)%nat -> 1 <= at_least l hs.
Proof.
  assert (Nn : forall hs, 0 <= at_least l hs) by (induction hs0 as [|y hs0 IH]; cbn [at_least]; [lia|]; destruct (Nat.leb l y); cbn [bit]; lia).
  induction hs as [|y hs IH]; intros I L; [contradiction|]. cbn [at_least]. specialize (Nn hs). destruct I as [->|I].
  - destruct (Nat.leb_spec l x); cbn [bit]; lia.
  - specialize (IH I L). destruct (Nat.leb l y); cbn [bit]; lia.
Qed.
Lemma moves_at_least l hs : moves l hs <= at_least l hs.
Proof.
  induction hs as [|y hs IH]; cbn [moves at_least]; [lia|].
  assert (Nn : 0 <= at_least l hs) by (clear; induction hs as [|y hs IH]; cbn [at_least]; [lia|]; destruct (Nat.leb l y); cbn [bit]; lia).
  destruct (Nat.ltb_spec l y), (Nat.eqb_spec y l), (Nat.leb_spec l y); cbn [bit]; lia.
Qed.
(** lg is a number of levels that are paid for in full. *)
Lemma level_sum (lg n L : nat) hs : (L <= n)%nat -> (forall l, (lg < l <= L)%nat -> exists x, In x hs /\ (l <= x)%nat) ->
  Z.of_nat L <= sum_levels n (fun l => if Nat.leb l lg then 1 else at_least l hs).
Proof.
  assert (Nn : forall l hs, 0 <= at_least l hs) by (intros l; induction hs0 as [|y hs0 IH]; cbn [at_least]; [lia|]; destruct (Nat.leb l y); cbn [bit]; lia).
  intros LL H. induction n as [|n IH]; [cbn; lia|]. cbn [sum_levels]. destruct (Nat.eq_dec L (S n)) as [->|].
  - clear IH. assert (G : forall m, (m <= S n)%nat -> Z.of_nat m <= sum_levels m (fun l => if Nat.leb l lg then 1 else at_least l hs)).
    { induction m as [|m IH]; intros Lm; [cbn; lia|]. cbn [sum_levels]. specialize (IH ltac:(lia)). destruct (Nat.leb_spec (S m) lg); [lia|].
      destruct (H (S m) ltac:(lia)) as (x & I & Lx). pose proof (at_least_pos _ _ _ I Lx). lia. }
    apply (G (S n)). lia.
  - assert (L <= n)%nat by lia. specialize (IH ltac:(lia)). destruct (Nat.leb (S n) lg); [lia|]. specialize (Nn (S n) hs). lia.
Qed.
Lemma sum_moves_levels n hs : sum_moves n hs = sum_levels n (fun l => moves l hs).
Proof. induction n as [|n IH]; cbn [sum_moves sum_levels]; auto. now rewrite IH. Qed.
Lemma sum_levels_more n m f : (n <= m)%nat -> (forall l, 0 <= f l) -> sum_levels n f <= sum_levels m f.
Proof. intros L H. induction L as [|m L IH]; [lia|]. cbn [sum_levels]. specialize (H (S m)). lia. Qed.
Lemma sum_levels_add n f g : sum_levels n (fun l => f l + g l) = sum_levels n f + sum_levels n g.
Proof. induction n as [|n IH]; cbn [sum_levels]; lia. Qed.

Lemma sum_moves_len n hs : sum_moves n hs <= zlen hs.
Proof.
  rewrite sum_moves_levels. induction hs as [|x hs IH].
  - enough (sum_levels n (fun l => moves l []) = 0) by (unfold zlen; cbn [length]; lia). induction n as [|n IH]; cbn [sum_levels moves] in *; lia.
  - assert (L1 : sum_levels n (fun l => moves l (x :: hs)) <= sum_levels n (fun l => bit (Nat.eqb x l) + moves l hs)).
    { apply sum_levels_le. intros l _. cbn [moves]. pose proof (moves_nonneg l hs). destruct (Nat.ltb_spec l x); [|lia]. destruct (Nat.eqb x l); cbn [bit]; lia. }
    rewrite sum_levels_add in L1. assert (L2 : forall m, 0 <= sum_levels m (fun l => bit (Nat.eqb x l)) <= bit (Nat.leb x m)).
    { induction m as [|m IH2]; cbn [sum_levels]; [destruct (Nat.leb x 0); cbn; lia|]. destruct (Nat.leb_spec x m), (Nat.leb_spec x (S m)), (Nat.eqb_spec x (S m)); cbn [bit] in *; lia. }
    specialize (L2 n). assert (bit (Nat.leb x n) <= 1) by (destruct (Nat.leb x n); cbn; lia). unfold zlen in *. cbn [length]. lia.
Qed.
Lemma keys_read_moves (hit stop : K -> bool) key h0 hd (ps : list cell) s : rep h0 hd ps s -> ksorted lt (kvs ps) ->
  (forall k, negb (hit k) && negb (stop k) = lt k key) ->
  0 <= keys_read hit stop s <= Z.of_nat (sl_level (snd s)) + sum_moves (sl_level (snd s)) (rev (map ch (filter (fun c => lt (ck c) key) ps))).
Proof using SW.
  intros R S Hp. destruct s as [h l]. unfold keys_read, reads. pose proof (rep_fuel _ _ _ _ _ R) as Hf. rewrite bind_fuel, !bind_hget.
  pose proof (r_head _ _ _ _ R) as Hh. cbn [snd] in Hh. rewrite Hh.
  set (P := filter (fun c => lt (ck c) key) ps). set (Q := filter (fun c => negb (lt (ck c) key)) ps).
  assert (Eps : ps = P ++ Q).
  { unfold P, Q. clear - S SW. induction ps as [|c ps IH]; auto. cbn [kvs map] in S. apply StronglySorted_inv in S as [S F]. specialize (IH S). cbn [filter]. destruct (lt (ck c) key) eqn:E; cbn [negb]; [cbn; now f_equal|].
    rewrite filter_none, filter_all; auto; apply Forall_forall; intros d I.
    - rewrite Forall_forall in F. specialize (F (ck d, cv d) (in_map (fun c => (ck c, cv c)) _ _ I)). cbn in F. destruct (lt (ck d) key) eqn:E2; auto. now rewrite (sw_trans _ SW _ _ _ F E2) in E.
    - rewrite Forall_forall in F. specialize (F (ck d, cv d) (in_map (fun c => (ck c, cv c)) _ _ I)). cbn in F. destruct (lt (ck d) key) eqn:E2; auto. now rewrite (sw_trans _ SW _ _ _ F E2) in E. }
  destruct (descend_count_ok hit stop h hd ps P Q (r_cells _ _ _ _ R) (r_chain _ _ _ _ R) Hf Eps) with (l := l) (lvl := sl_level l) (A := @nil cell) (P' := P) as (r & n & E & B).
  - apply Forall_forall. intros c I. apply filter_In in I as [_ I]. rewrite <- Hp in I. apply andb_true_iff in I as [I1 I2]. split; now apply negb_true_iff.
  - intros c I. apply filter_In in I as [_ I]. rewrite <- Hp in I. destruct (hit (ck c)); auto. destruct (stop (ck c)); auto.
  - reflexivity.
  - now left.
  - intros c I. apply filter_In in I as [I _]. now apply (r_height _ _ _ _ R) in I as [_ I].
  - pose proof (r_level _ _ _ _ R). cbn in *. lia.
  - cbn [lasta] in E. change (fold_left _ [] hd) with hd in E. unfold lasta in E. cbn in E. rewrite E. cbn [fst].
    exact B.
Qed.
Lemma keys_read_worst (hit stop : K -> bool) key h0 hd (ps : list cell) s : rep h0 hd ps s -> ksorted lt (kvs ps) ->
  (forall k, negb (hit k) && negb (stop k) = lt k key) -> 0 <= keys_read hit stop s <= zlen ps + Z.of_nat (sl_level (snd s)).
Proof using SW.
  intros R S Hp. pose proof (keys_read_moves hit stop key h0 hd ps s R S Hp) as B. pose proof (sum_moves_len (sl_level (snd s)) (rev (map ch (filter (fun c => lt (ck c) key) ps)))) as L.
  pose proof (count_len (fun c => lt (ck c) key) ps) as C. unfold count, zlen in *. rewrite rev_length, map_length in L. lia.
Qed.
Lemma keys_read_bound (hit stop : K -> bool) key h0 hd (ps : list cell) s (lg : nat) : rep h0 hd ps s -> ksorted lt (kvs ps) -> (1 <= lg)%nat ->
  (forall k, negb (hit k) && negb (stop k) = lt k key) ->
  0 <= keys_read hit stop s <= sum_levels 40 (fun l => (if Nat.leb l lg then 1 else at_least l (map ch ps)) + moves l (rev (map snd (filter (fun p => lt (fst p) key) (hts ps))))).
Proof using SW.
  intros R S Hlg Hp. pose proof (keys_read_moves hit stop key h0 hd ps s R S Hp) as B. destruct s as [h l]. cbn [snd] in *. set (P := filter (fun c => lt (ck c) key) ps) in *.
  assert (Eh : map snd (filter (fun p => lt (fst p) key) (hts ps)) = map ch P).
  { unfold P, hts. clear. induction ps as [|c ps IH]; auto. cbn [map filter fst]. destruct (lt (ck c) key); cbn; now rewrite IH. }
  rewrite Eh, sum_levels_add. rewrite sum_moves_levels in B. pose proof (r_level _ _ _ _ R) as Lv. cbn [snd] in Lv. unfold skipListMaxLevel in Lv.
  pose proof (sum_levels_more (sl_level l) 40 (fun l0 => moves l0 (rev (map ch P))) ltac:(lia) (fun l0 => moves_nonneg l0 _)).
  pose proof (level_sum lg 40 (sl_level l) (map ch ps) ltac:(lia)) as L. destruct B as [B0 B]. split; [exact B0|].
  assert (Z.of_nat (sl_level l) <= sum_levels 40 (fun l0 => if Nat.leb l0 lg then 1 else at_least l0 (map ch ps))); [|lia].
  apply L. intros l0 Hl0. destruct (r_exact _ _ _ _ R) as [X|(c & I & X)]; cbn [snd] in X; [lia|]. exists (ch c). split; [now apply in_map|lia].
Qed.

(** Space. *)
Definition total (hs : list nat) : Z := fold_right (fun x t => Z.of_nat x + t) 0 hs.
Lemma links_ok h0 hd (ps : list cell) s : rep h0 hd ps s -> links s = total (map ch ps).
Proof using.
  destruct s as [h l]. intros R. unfold links. rewrite bind_fuel, bind_hget. pose proof (r_head _ _ _ _ R) as Hh. cbn in Hh. rewrite Hh.
  rewrite (bind_eq _ _ _ _ _ (ld_next_ok _ _ _ _ _ (chain_first _ _ _ _ (rep_chain0 _ _ _ _ _ R)))). pose proof (rep_fuel _ _ _ _ _ R) as L.
  assert (G : forall B A fuel t, rep h0 hd (A ++ B) (h, l) -> (length B < fuel)%nat -> links_loop fuel (firstp B) t (h, l) = (Ok (t + total (map ch B)), (h, l))).
  { induction B as [|c B IH]; intros A fuel t R' L'; (destruct fuel as [|fuel]; [cbn in L'; lia|]); cbn [links_loop firstp is_nil]; [cbn; now rewrite Z.add_0_r|].
    assert (I : In c (A ++ c :: B)) by (apply in_app_iff; right; now left). pose proof (rep_cell _ _ _ _ _ _ R' I) as Nc. unfold nd in Nc.
    destruct (nth_error h (ca c)) as [n|] eqn:En; [|discriminate]. cbn [option_map] in Nc. injection Nc as _ _ Nl.
    assert (El : pload (Some (ca c)) (h, l) = (Ok n, (h, l))) by (unfold pload; cbn; rewrite En; reflexivity).
    rewrite (bind_eq _ _ _ _ _ El). rewrite (bind_eq _ _ _ _ _ (ld_next_ok _ _ _ _ _ (rep_next _ _ A c B _ _ R'))).
    rewrite (IH (A ++ [c])); [|rewrite <- app_assoc; exact R'|cbn in L'; lia]. cbn [map total fold_right]. fold (total (map ch B)). unfold zlen. rewrite Nl. do 2 f_equal. lia. }
  rewrite (G ps [] _ 0); auto.
Qed.
Lemma total_levels hs : (forall x, In x hs -> (x <= 40)%nat) -> total hs = sum_levels 40 (fun l => at_least l hs).
Proof using.
  induction hs as [|x hs IH]; intros H; [reflexivity|]. cbn [total fold_right]. fold (total hs). rewrite IH by (intros y I; apply H; now right).
  specialize (H x (or_introl eq_refl)). change (fun l => at_least l (x :: hs)) with (fun l => bit (Nat.leb l x) + at_least l hs). rewrite sum_levels_add. f_equal.
  assert (G : forall n, sum_levels n (fun l => bit (Nat.leb l x)) = Z.of_nat (Nat.min n x)) by (induction n as [|n IHn]; cbn [sum_levels]; [lia|]; destruct (Nat.leb_spec (S n) x); cbn [bit]; lia).
  rewrite G. lia.
Qed.
End Cost.

(** *** Keys read by the searches *)
Section Searches.
Context {K V : Type}.
Notation SP := (P (slnode K V) sklist).
Notation cell := (@cell K V).
Notation state := (list (slnode K V) * sklist)%type.
Definition adds {A B} (d : Z) (k : A * Z -> SP (B * Z)) : Prop := forall r t b n t', k r t = (Ok (b, n), t') -> snd r <= n <= snd r + d.
Lemma adds_reads {A B} d (m : SP (A * Z)) (k : A * Z -> SP (B * Z)) s b s' : adds d k -> plain (bind m k) s = (Ok b, s') -> reads m s <= reads (bind m k) s <= reads m s + d.
Proof.
  intros H E. unfold plain in E. unfold reads. destruct (bind m k s) as [[[b' n]| |] t'] eqn:Eb; try discriminate. injection E as -> ->. cbn [fst].
  unfold bind in Eb. destruct (m s) as [[[x n0]| |] t] eqn:Em; try discriminate. apply H in Eb. exact Eb.
Qed.
Definition searched (lt : K -> K -> bool) (key : K) (f : state -> Z) : Prop := exists hit stop : K -> bool,
  (forall k, negb (hit k) && negb (stop k) = lt k key) /\ forall h0 hd (ps : list cell) s, rep h0 hd ps s -> keys_read hit stop s <= f s <= keys_read hit stop s + 1.
Ltac adds_tac := let E := fresh "E" in intros [? ?] ? ? ? ? E; cbn [fst snd] in *; unfold bind in E;
  repeat (match type of E with context [match ?x with _ => _ end] => destruct x eqn:? end; try discriminate); cbn in E;
  repeat match goal with H : ret _ _ = _ |- _ => unfold ret in H | H : (Ok _, _) = (Ok _, _) |- _ => injection H as <- <- <- end; try lia.
Lemma prevs_read (hit stop : K -> bool) h0 hd (ps : list cell) h l {B} (k : nat -> (ptr + ptr) * Z -> SP (B * Z)) : rep h0 hd ps (h, l) ->
  exists m : SP ((ptr + ptr) * Z), reads m (h, l) = keys_read hit stop (h, l) /\
  (fuel <- heap_fuel ;; prevs <- prevs_slice ;; prev <- hget sl_head ;; level <- hget sl_level ;; r <- descend_prevs_count hit stop fuel prevs level prev ;; k prevs r) (h, l) = bind m (k (sl_level l)) (h, l).
Proof.
  intros R. exists (descend_prevs_count hit stop (S (length h)) (sl_level l) (sl_level l) (sl_head l)). split.
  - destruct (descend_heap hit stop (S (length h)) (sl_level l) (sl_head l) h) as [o Ho]. destruct (Ho l) as [H1 H2]. specialize (H2 (sl_level l) (le_n _)).
    unfold keys_read, reads. rewrite H2. rewrite bind_fuel, !bind_hget, H1. reflexivity.
  - rewrite bind_fuel. assert (Ep : prevs_slice (K := K) (V := V) (h, l) = (Ok (sl_level l), (h, l))).
    { unfold prevs_slice. rewrite !bind_hget. pose proof (r_prevs _ _ _ _ R) as L1. pose proof (r_level _ _ _ _ R) as L2. cbn [snd] in *. rewrite L1. assert (Nat.leb (sl_level l) skipListMaxLevel = true) as -> by (apply Nat.leb_le; lia). reflexivity. }
    rewrite (bind_eq _ _ _ _ _ Ep), !bind_hget. reflexivity.
Qed.
Lemma searches_read (impl : @slimpl K V) cnt lt key : counted impl cnt lt -> each_search cnt key (searched lt key).
Proof.
  intros C. pose proof (impl_plain impl cnt lt C key) as PL.
  assert (Hk : kind impl lt) by (destruct C as [(eqb & -> & _ & O)|(cmp & -> & _ & O)]; [left|right]; eauto).
  destruct (kind_spec _ _ Hk) as (eqk & gtk & SP & SW & Eq & Gt).
  assert (O1 : forall h0 hd ps h l, rep h0 hd ps (h, l) -> exists x, findNode impl key (h, l) = (Ok x, (h, l))) by (intros h0 hd ps h l R; destruct (sp_find _ _ _ SP _ _ _ _ _ key R) as [(c & _ & _ & E)|(A & B & _ & _ & E)]; eauto).
  assert (O2 : forall h0 hd ps h l, rep h0 hd ps (h, l) -> exists x, lowerBound impl key (h, l) = (Ok x, (h, l))) by (intros h0 hd ps h l R; destruct (sp_lower _ _ _ SP _ _ _ _ _ key R) as [(A & c & B & _ & _ & E)|(A & B & _ & _ & E)]; eauto).
  assert (O3 : forall h0 hd ps h l, rep h0 hd ps (h, l) -> exists x, upperBound impl key (h, l) = (Ok x, (h, l))) by (intros h0 hd ps h l R; destruct (sp_upper _ _ _ SP _ _ _ _ _ key R) as [(A & c & B & _ & _ & E)|(A & B & _ & _ & E)]; eauto).
  assert (O4 : forall h0 hd ps h l, rep h0 hd ps (h, l) -> exists x s', findInsertPoint impl key (h, l) = (Ok x, s')) by (intros h0 hd ps h l R; destruct (sp_insert _ _ _ SP _ _ _ _ _ key R) as [(c & pc & _ & _ & _ & E)|(A & B & pc & _ & _ & _ & E)]; eauto).
  assert (O5 : forall h0 hd ps h l, rep h0 hd ps (h, l) -> exists x s', findRemovePoint impl key (h, l) = (Ok x, s')) by (intros h0 hd ps h l R; destruct (sp_remove _ _ _ SP _ _ _ _ _ key R) as (A & B & pc & _ & _ & _ & E); eauto).
  destruct C as [(eqb & -> & -> & [_ Oe])|(cmp & -> & -> & TW & Ec)]; unfold each_search; cbn [findNode_count lowerBound_count upperBound_count findInsertPoint_count findRemovePoint_count countOrdered countFunc] in *.
  - assert (T1 : forall k, negb (eqb k key) && negb (gtb lt k key) = lt k key).
    { intros k. rewrite Oe. unfold eqv, gtb. destruct (lt k key) eqn:E1, (lt key k) eqn:E2; auto. pose proof (sw_trans _ SW _ _ _ E1 E2). rewrite (sw_irrefl _ SW) in H. discriminate. }
    assert (T2 : forall k, negb false && negb (geb lt eqb k key) = lt k key).
    { intros k. unfold geb. rewrite Oe. unfold eqv. destruct (lt k key) eqn:E1, (lt key k) eqn:E2; auto. pose proof (sw_trans _ SW _ _ _ E1 E2). rewrite (sw_irrefl _ SW) in H. discriminate. }
    assert (D : forall eq h l x s', plain (ord_doFindNode_count (V := V) lt eqb key eq) (h, l) = (Ok x, s') ->
      reads (ord_doFindNode_count lt eqb key eq) (h, l) = keys_read (fun k => eqb k key) (fun k => gtb lt k key) (h, l)).
    { intros eq h l x s' E. revert E. unfold keys_read. unfold plain, reads, ord_doFindNode_count. rewrite !bind_fuel, !bind_hget. intros E. apply (adds_reads 0) in E; [unfold reads in E; lia|]. destruct eq; adds_tac. }
    split; [|split; [|split; [|split]]].
    + exists (fun k => eqb k key), (fun k => gtb lt k key). split; auto. intros h0 hd ps [h l] R. destruct (O1 _ _ _ _ _ R) as (x & E). rewrite (D true h l x (h, l)) by (rewrite (proj1 (PL _)); exact E). lia.
    + exists (fun k => eqb k key), (fun k => gtb lt k key). split; auto. intros h0 hd ps [h l] R. destruct (O2 _ _ _ _ _ R) as (x & E). rewrite (D false h l x (h, l)) by (rewrite (proj1 (proj2 (PL _))); exact E). lia.
    + exists (fun k => eqb k key), (fun k => gtb lt k key). split; auto. intros h0 hd ps [h l] R. destruct (O2 _ _ _ _ _ R) as (x & E). rewrite <- (D false h l x (h, l)) by (rewrite (proj1 (proj2 (PL _))); exact E).
      destruct (O3 _ _ _ _ _ R) as (y & E3). apply (adds_reads 1 _ _ (h, l) y (h, l)); [|rewrite <- E3; apply PL]. adds_tac.
    + exists (fun k => eqb k key), (fun k => gtb lt k key). split; auto. intros h0 hd ps [h l] R. destruct (O4 _ _ _ _ _ R) as (y & s' & E4). rewrite <- (proj1 (proj2 (proj2 (proj2 (PL _))))) in E4.
      destruct (prevs_read (fun k => eqb k key) (fun k => gtb lt k key) h0 hd ps h l (fun prevs r => match fst r with inl next => ret (next, O, snd r) | inr _ => ret (None, prevs, snd r) end) R) as (m & Em & Eb).
      change (ord_findInsertPoint_count lt eqb key (h, l) = bind m (fun r => match fst r with inl next => ret (next, O, snd r) | inr _ => ret (None, sl_level l, snd r) end) (h, l)) in Eb. unfold plain in E4. rewrite Eb in E4. assert (Er : reads (ord_findInsertPoint_count lt eqb key) (h, l) = reads (bind m (fun r => match fst r with inl next => ret (next, O, snd r) | inr _ => ret (None, sl_level l, snd r) end)) (h, l)) by (unfold reads; now rewrite Eb). rewrite Er, <- Em. apply (adds_reads 1 _ _ (h, l) y s'); [|exact E4]. adds_tac.
    + exists (fun _ => false), (fun k => geb lt eqb k key). split; auto. intros h0 hd ps [h l] R. destruct (O5 _ _ _ _ _ R) as (y & s' & E5). rewrite <- (proj2 (proj2 (proj2 (proj2 (PL _))))) in E5.
      destruct (prevs_read (fun _ => false) (fun k => geb lt eqb k key) h0 hd ps h l (fun prevs r => ret (prevs, snd r)) R) as (m & Em & Eb).
      assert (E6 : reads (ord_findPrevNodes_count lt eqb key) (h, l) = reads m (h, l)).
      { change (ord_findPrevNodes_count lt eqb key (h, l) = bind m (fun r => ret (sl_level l, snd r)) (h, l)) in Eb. unfold reads at 1. rewrite Eb. unfold bind, reads. destruct (m (h, l)) as [[[? ?]| |] ?]; reflexivity. }
      rewrite <- Em, <- E6. apply (adds_reads 1 _ _ (h, l) y s'); [|exact E5]. adds_tac.
  - assert (T0 : forall k, lt k key = (cmp k key <? 0)) by auto.
    assert (T1 : forall k, negb (cmp k key =? 0) && negb (0 <? cmp k key) = lt k key) by (intros k; rewrite T0; lia).
    assert (T2 : forall k, negb false && negb (0 <=? cmp k key) = lt k key) by (intros k; rewrite T0; lia).
    assert (D : forall h l x s', plain (fn_lowerBound_count (V := V) cmp key) (h, l) = (Ok x, s') ->
      reads (fn_lowerBound_count cmp key) (h, l) = keys_read (fun k => cmp k key =? 0) (fun k => 0 <? cmp k key) (h, l)).
    { intros h l x s' E. revert E. unfold keys_read. unfold plain, reads, fn_lowerBound_count. rewrite !bind_fuel, !bind_hget. intros E. apply (adds_reads 0) in E; [unfold reads in E; lia|]. adds_tac. }
    split; [|split; [|split; [|split]]].
    + exists (fun k => cmp k key =? 0), (fun k => 0 <? cmp k key). split; auto. intros h0 hd ps [h l] R. destruct (O2 _ _ _ _ _ R) as (x & E). rewrite <- (D h l x (h, l)) by (rewrite (proj1 (proj2 (PL _))); exact E).
      destruct (O1 _ _ _ _ _ R) as (y & E3). apply (adds_reads 1 _ _ (h, l) y (h, l)); [|rewrite <- E3; apply PL]. adds_tac.
    + exists (fun k => cmp k key =? 0), (fun k => 0 <? cmp k key). split; auto. intros h0 hd ps [h l] R. destruct (O2 _ _ _ _ _ R) as (x & E). rewrite (D h l x (h, l)) by (rewrite (proj1 (proj2 (PL _))); exact E). lia.
    + exists (fun k => cmp k key =? 0), (fun k => 0 <? cmp k key). split; auto. intros h0 hd ps [h l] R. destruct (O2 _ _ _ _ _ R) as (x & E). rewrite <- (D h l x (h, l)) by (rewrite (proj1 (proj2 (PL _))); exact E).
      destruct (O3 _ _ _ _ _ R) as (y & E3). apply (adds_reads 1 _ _ (h, l) y (h, l)); [|rewrite <- E3; apply PL]. adds_tac.
    + exists (fun k => cmp k key =? 0), (fun k => 0 <? cmp k key). split; auto. intros h0 hd ps [h l] R. destruct (O4 _ _ _ _ _ R) as (y & s' & E4). rewrite <- (proj1 (proj2 (proj2 (proj2 (PL _))))) in E4.
      destruct (prevs_read (fun k => cmp k key =? 0) (fun k => 0 <? cmp k key) h0 hd ps h l (fun prevs r => match fst r with inl next => ret (next, O, snd r) | inr _ => ret (None, prevs, snd r) end) R) as (m & Em & Eb).
      change (fn_findInsertPoint_count cmp key (h, l) = bind m (fun r => match fst r with inl next => ret (next, O, snd r) | inr _ => ret (None, sl_level l, snd r) end) (h, l)) in Eb. unfold plain in E4. rewrite Eb in E4. assert (Er : reads (fn_findInsertPoint_count cmp key) (h, l) = reads (bind m (fun r => match fst r with inl next => ret (next, O, snd r) | inr _ => ret (None, sl_level l, snd r) end)) (h, l)) by (unfold reads; now rewrite Eb). rewrite Er, <- Em. apply (adds_reads 1 _ _ (h, l) y s'); [|exact E4]. adds_tac.
    + exists (fun _ => false), (fun k => 0 <=? cmp k key). split; auto. intros h0 hd ps [h l] R. destruct (O5 _ _ _ _ _ R) as (y & s' & E5). rewrite <- (proj2 (proj2 (proj2 (proj2 (PL _))))) in E5.
      destruct (prevs_read (fun _ => false) (fun k => 0 <=? cmp k key) h0 hd ps h l (fun prevs r => ret (prevs, snd r)) R) as (m & Em & Eb).
      assert (E6 : reads (fn_findPrevNodes_count cmp key) (h, l) = reads m (h, l)).
      { change (fn_findPrevNodes_count cmp key (h, l) = bind m (fun r => ret (sl_level l, snd r)) (h, l)) in Eb. unfold reads at 1. rewrite Eb. unfold bind, reads. destruct (m (h, l)) as [[[? ?]| |] ?]; reflexivity. }
      rewrite <- Em, <- E6. apply (adds_reads 1 _ _ (h, l) y s'); [|exact E5]. adds_tac.
Qed.
End Searches.

(** *** The average over all draws *)
Lemma levels_total (a : nat -> Z) (lg : nat) (n t : Z) : 0 <= t -> n < 2 ^ Z.of_nat lg ->
  (forall l, (1 <= l <= lg)%nat -> 2 * a l <= 5 * t) -> (forall l, (lg < l <= 40)%nat -> 2 ^ Z.of_nat (l - 1) * a l <= 2 * n * t) -> (lg <= 40)%nat ->
  2 * sum_levels 40 a <= (5 * Z.of_nat lg + 8) * t.
Proof.
  intros Ht Hn H1 H2 Hlg.
  assert (L1 : forall m, (m <= lg)%nat -> 2 * sum_levels m a <= 5 * Z.of_nat m * t).
  { induction m as [|m IH]; intros Lm; [cbn; lia|]. cbn [sum_levels]. specialize (IH ltac:(lia)). specialize (H1 (S m) ltac:(lia)). lia. }
  assert (L2 : forall d, (lg + d <= 40)%nat -> 2 ^ Z.of_nat d * (2 * sum_levels (lg + d) a) <= 2 ^ Z.of_nat d * (5 * Z.of_nat lg * t) + 8 * t * (2 ^ Z.of_nat d - 1)).
  { induction d as [|d IH]; intros Ld; [rewrite Nat.add_0_r; specialize (L1 lg ltac:(lia)); change (2 ^ Z.of_nat 0) with 1; lia|]. rewrite Nat.add_succ_r. cbn [sum_levels]. specialize (IH ltac:(lia)).
    specialize (H2 (S (lg + d)) ltac:(lia)). replace (S (lg + d) - 1)%nat with (lg + d)%nat in H2 by lia. rewrite Nat2Z.inj_add, Z.pow_add_r in H2 by lia.
    rewrite Nat2Z.inj_succ, Z.pow_succ_r by lia. set (x := a (S (lg + d))) in *. assert (0 < 2 ^ Z.of_nat lg) by (apply Z.pow_pos_nonneg; lia). set (q := 2 ^ Z.of_nat lg) in *. set (e := 2 ^ Z.of_nat d) in *.
    assert (e * x <= 2 * t). { apply Z.mul_le_mono_pos_l with (p := q); [lia|]. assert (n * t <= q * t) by (apply Z.mul_le_mono_nonneg_r; lia). lia. }
    lia. }
  specialize (L2 (40 - lg)%nat ltac:(lia)). replace (lg + (40 - lg))%nat with 40%nat in L2 by lia. set (e := 2 ^ Z.of_nat (40 - lg)) in *. assert (0 < e) by (apply Z.pow_pos_nonneg; lia).
  apply Z.mul_le_mono_pos_l with (p := e); [lia|]. nia.
Qed.

Lemma levels_halving (a : nat -> Z) (n t : Z) : (forall l, (1 <= l <= 40)%nat -> 2 ^ Z.of_nat (l - 1) * a l <= n * t) -> 0 <= n * t -> sum_levels 40 a <= 2 * n * t.
Proof.
  intros H Hn. assert (G : forall m, (m <= 40)%nat -> 2 ^ Z.of_nat m * sum_levels m a <= 2 * (2 ^ Z.of_nat m - 1) * (n * t)).
  { induction m as [|m IH]; intros Lm; [cbn; lia|]. cbn [sum_levels]. specialize (IH ltac:(lia)). specialize (H (S m) ltac:(lia)). replace (S m - 1)%nat with m in H by lia.
    rewrite Nat2Z.inj_succ, Z.pow_succ_r by lia. set (e := 2 ^ Z.of_nat m) in *. nia. }
  specialize (G 40%nat ltac:(lia)). set (e := 2 ^ Z.of_nat 40) in *. assert (0 < e) by reflexivity. apply Z.mul_le_mono_pos_l with (p := e); [lia|]. nia.
Qed.
Section Average.
Variables w p : nat.
Hypothesis Hp : Z.of_nat p = 2 ^ 40.
Notation E := (E w p).
Notation T := (T w p).
Lemma E_levels xs n : forall g, E xs (fun rho => sum_levels n (fun l => g l rho)) = sum_levels n (fun l => E xs (g l)).
Proof. intros g. induction n as [|n IH]; cbn [sum_levels]; [rewrite E_const; lia|]. rewrite E_add, IH. reflexivity. Qed.
Definition sum_seqs := fix go (n : nat) (f : list Z -> Z) : Z := match n with O => f [] | S n' => sum_below (fun r => go n' (fun rs => f (r :: rs))) (width w p) end.
Lemma sum_seqs_E n : forall a f, sum_seqs n f = E (seq a n) (fun rho => f (map rho (seq a n))).
Proof.
  induction n as [|n IH]; intros a f; cbn [sum_seqs seq Proof_Draws.E map]; auto. apply sum_below_ext. intros r _. rewrite (IH (S a)). apply E_ext. intros rho.
  unfold set_draw at 1. rewrite Nat.eqb_refl. do 2 f_equal. apply map_ext_in. intros j I. apply in_seq in I. unfold set_draw. destruct (Nat.eqb_spec a j); [lia|reflexivity].
Qed.
Context {K : Type}.
Lemma NoDup_idx_filter f (g : list (K * slot)) : NoDup (map idx g) -> NoDup (map idx (filter f g)).
Proof.
  induction g as [|q g IH]; cbn; intros N; [constructor|]. inversion N; subst. destruct (f q); [|now apply IH]. cbn. constructor; [|now apply IH].
  intros I. apply H1. apply in_map_iff in I as (x & Eq & I). apply filter_In in I as [I _]. rewrite <- Eq. now apply in_map.
Qed.
Lemma E_slots k (js : list slot) (f : list nat -> Z) : NoDup (map fst js) -> (forall i, In i (map fst js) -> (i < k)%nat) ->
  exists rest, length (map fst js ++ rest) = k /\ E (seq 0 k) (fun rho => f (map (height rho) js)) = E (map fst js ++ rest) (fun rho => f (map (height rho) js)).
Proof.
  intros N I. destruct (nodup_rest (map fst js) (seq 0 k) N) as (rest & P); [intros j J; apply in_seq; specialize (I j J); lia|apply seq_NoDup|]. exists rest. split.
  - rewrite <- (Permutation_length P). apply seq_length.
  - apply E_perm; auto; [apply seq_NoDup|]. intros rho rho' H. f_equal. apply map_ext. intros c. unfold height. now rewrite H.
Qed.
(** The average of the bound of keys_read_bound. *)
Lemma average_levels k (g : list (K * slot)) (f : K * slot -> bool) (lg : nat) : ghost_ok k g -> zlen g < 2 ^ Z.of_nat lg -> (1 <= lg <= 39)%nat ->
  2 * E (seq 0 k) (fun rho => sum_levels 40 (fun l => (if Nat.leb l lg then 1 else at_least l (map (height rho) (map snd g))) + moves l (map (height rho) (rev (map snd (filter f g)))))) <=
  (5 * Z.of_nat lg + 8) * T k.
Proof using Hp.
  intros (G1 & G2 & G3) Hn Hlg. rewrite (E_levels _ 40 (fun l rho => (if Nat.leb l lg then 1 else at_least l (map (height rho) (map snd g))) + moves l (map (height rho) (rev (map snd (filter f g)))))).
  pose proof (T_nonneg w p k) as Ht. set (js := rev (map snd (filter f g))).
  assert (Ej : map fst js = rev (map idx (filter f g))) by (unfold js; rewrite map_rev, map_map; reflexivity).
  assert (Nj : NoDup (map fst js)) by (rewrite Ej; apply NoDup_rev; now apply NoDup_idx_filter).
  assert (Ij : forall i, In i (map fst js) -> (i < k)%nat).
  { intros i I. rewrite Ej in I. apply in_rev in I. apply G1. apply in_map_iff in I as (x & <- & I). apply filter_In in I as [I _]. now apply in_map. }
  assert (Lj : zlen js <= zlen g). { unfold js, zlen. rewrite rev_length, map_length. pose proof (count_len f g) as C. unfold count, zlen in C. lia. }
  apply (levels_total _ lg (zlen g) (T k) Ht Hn); [| |lia].
  - intros l Hl. rewrite (E_ext _ _ _ _ (fun rho => 1 + moves l (map (height rho) js))) by (intros rho; destruct (Nat.leb_spec l lg); [reflexivity|lia]).
    rewrite E_add, E_const, seq_length. destruct (E_slots k js (moves l) Nj Ij) as (rest & Lr & Er). rewrite Er.
    destruct (moves_bound w p Hp l rest ltac:(lia) js Nj) as [_ B]. rewrite Lr in B. set (X := E (map fst js ++ rest) _) in *.
    assert (N : 2 * count (capped l) js <= 2 ^ Z.of_nat (l - 1)).
    { assert (C0 : forall (c : slot -> bool) (c' : K * slot -> bool), (forall q, c (snd q) = true -> c' q = true) -> count c js <= count c' g).
      { intros c c' Hc. unfold js. rewrite (count_perm _ _ _ (Permutation_sym (Permutation_rev _))). clear - Hc. induction g as [|q g IH]; cbn [filter map]; [cbn; lia|]. rewrite (count_cons c' q g).
        assert (0 <= bit (c' q)) by (destruct (c' q); cbn; lia). destruct (f q); [|lia]. cbn [map]. rewrite count_cons. specialize (Hc q). destruct (c (snd q)); cbn [bit] in *; [rewrite Hc by auto; cbn [bit]; lia|lia]. }
      assert (0 < 2 ^ Z.of_nat (l - 1)) by (apply Z.pow_pos_nonneg; lia).
      destruct (Nat.le_gt_cases l 2).
      - pose proof (C0 (capped l) (fun _ => false)) as C1. assert (count (fun _ : K * slot => false) g = 0) by (clear; induction g as [|q g IH]; [reflexivity|]; rewrite count_cons; cbn [bit]; lia).
        enough (count (capped l) js <= 0) by lia. rewrite <- H1. apply C1. intros q. unfold capped, open. destruct (Nat.leb_spec (S l) 3); [|lia]. destruct (Nat.leb_spec (S l) 40); [|lia]. cbn. now rewrite andb_false_r.
      - pose proof (C0 (capped l) (early (2 ^ Z.of_nat (l - 2)))) as C1. assert (0 <= 2 ^ Z.of_nat (l - 2)) by (apply Z.pow_nonneg; lia). specialize (G3 _ H1).
        replace (l - 1)%nat with (S (l - 2)) by lia. rewrite Nat2Z.inj_succ, Z.pow_succ_r by lia.
        enough (count (capped l) js <= count (early (2 ^ Z.of_nat (l - 2))) g) by lia. apply C1. intros q. unfold capped, early, open. destruct (Nat.leb_spec (S l) 40); [|lia]. destruct (Nat.leb_spec (S l) 3); [lia|].
        cbn [andb orb]. intros H4. apply andb_true_iff in H4 as [_ H4]. apply negb_true_iff, Z.leb_gt in H4. apply Z.ltb_lt. replace (S l - 3)%nat with (l - 2)%nat in H4 by lia. exact H4. }
    assert (0 < 2 ^ Z.of_nat (l - 1)) by (apply Z.pow_pos_nonneg; lia). set (P := 2 ^ Z.of_nat (l - 1)) in *.
    assert (2 * X <= 3 * T k); [|lia]. apply Z.mul_le_mono_pos_l with (p := P); [lia|]. nia.
  - intros l Hl. rewrite (E_ext _ _ _ _ (fun rho => at_least l (map (height rho) (map snd g)) + moves l (map (height rho) js))) by (intros rho; destruct (Nat.leb_spec l lg); [lia|reflexivity]).
    rewrite E_add. assert (En : map fst (map snd g) = map idx g) by (rewrite map_map; reflexivity).
    destruct (E_slots k (map snd g) (at_least l)) as (rest & Lr & Er); [now rewrite En|now rewrite En|]. rewrite Er.
    pose proof (at_least_bound w p Hp l rest ltac:(lia) (map snd g)) as B1. rewrite Lr, En in B1. specialize (B1 G2).
    assert (B2 : 2 ^ Z.of_nat (l - 1) * E (seq 0 k) (fun rho => moves l (map (height rho) js)) <= zlen js * T k).
    { destruct (E_slots k js (at_least l) Nj Ij) as (rest2 & Lr2 & Er2). pose proof (at_least_bound w p Hp l rest2 ltac:(lia) js Nj) as B2. rewrite Lr2, <- Er2 in B2.
      eapply Z.le_trans; [|exact B2]. apply Z.mul_le_mono_nonneg_l; [apply Z.pow_nonneg; lia|]. apply E_le. intros rho. apply moves_at_least. }
    rewrite En. assert (zlen (map snd g) = zlen g) as Z1 by (unfold zlen; now rewrite map_length). rewrite Z1 in B1.
    assert (zlen js * T k <= zlen g * T k) by (apply Z.mul_le_mono_nonneg_r; lia). rewrite Z.mul_add_distr_l. lia.
Qed.
Lemma average_total k (g : list (K * slot)) : ghost_ok k g ->
  E (seq 0 k) (fun rho => sum_levels 40 (fun l => at_least l (map (height rho) (map snd g)))) <= 2 * zlen g * T k.
Proof using Hp.
  intros (G1 & G2 & G3). rewrite (E_levels _ 40 (fun l rho => at_least l (map (height rho) (map snd g)))).
  pose proof (T_nonneg w p k) as Ht. assert (En : map fst (map snd g) = map idx g) by (rewrite map_map; reflexivity).
  assert (Z1 : zlen (map snd g) = zlen g) by (unfold zlen; now rewrite map_length).
  apply levels_halving; [|apply Z.mul_nonneg_nonneg; [unfold zlen; lia|lia]]. intros l Hl.
  destruct (E_slots k (map snd g) (at_least l)) as (rest & Lr & Er); [now rewrite En|now rewrite En|]. rewrite Er.
  pose proof (at_least_bound w p Hp l rest ltac:(lia) (map snd g)) as B1. rewrite Lr, Z1 in B1. apply B1. now rewrite En.
Qed.
End Average.

(** *** Reachable states *)
Section Final.
Context {K V St : Type}.
Variables (impl : @slimpl K V) (lt : K -> K -> bool).
Hypothesis Hk : kind impl lt.
Notation cell := (@cell K V).

Lemma sum_seqs_le w p n f g : (forall rs, length rs = n -> f rs <= g rs) -> sum_seqs w p n f <= sum_seqs w p n g.
Proof. revert f g. induction n as [|n IH]; intros f g H; cbn [sum_seqs]; [now apply H|]. apply sum_below_le. intros r _. apply IH. intros rs L. apply H. cbn. now rewrite L. Qed.
Lemma sum_draws_seqs w p : uint64s = width w p -> forall n f, sum_draws n f = sum_seqs w p n f.
Proof.
  intros E. induction n as [|n IH]; intros f; cbn [sum_draws sum_seqs]; [reflexivity|]. rewrite E. apply sum_below_ext. intros r _. apply IH.
Qed.
Lemma uint64s_width : uint64s = width (Z.to_nat (2 ^ 24)) (Z.to_nat (2 ^ 40)).
Proof. unfold uint64s, width. rewrite <- Z2Nat.inj_mul by lia. f_equal. Qed.
Lemma draws_total k : T (Z.to_nat (2 ^ 24)) (Z.to_nat (2 ^ 40)) k = (2 ^ 64) ^ Z.of_nat k.
Proof. unfold T, width. rewrite Nat2Z.inj_mul, !Z2Nat.id by lia. f_equal. Qed.
Lemma fresh_rep (zk : K) (zv : V) h0 l0 : rep (nth_error h0) (length h0) [] (snd (init zk zv (h0, l0))).
Proof. destruct (init_ok zk zv h0 l0) as (s' & E & R). now rewrite E. Qed.
Section Reachable.
Context (zk : K) (zv : V) (h0 : list (slnode K V)) (l0 : sklist) (ops : list (mop K V St)).
Definition state_of (rs : list Z) := snd (run (map_step impl) (with_draws ops rs) (snd (init zk zv (h0, l0)))).
Definition stored := snd (run (map_spec lt) ops (@nil (K * V))).
Definition ghost := ghosts lt 0 ops [].
Lemma reach_heights rho : exists ps, rep (nth_error h0) (length h0) ps (state_of (map rho (seq 0 (length ops)))) /\ ksorted lt (kvs ps) /\ hts ps = vmap (height rho) ghost.
Proof using Hk. apply (run_heights impl lt Hk rho (nth_error h0) (length h0) ops 0 [] []); [apply fresh_rep|constructor|reflexivity]. Qed.
Lemma reach_len rs ps hd : rep (nth_error h0) hd ps (state_of rs) -> zlen ps = zlen stored.
Proof using Hk.
  intros R. destruct (kind_spec _ _ Hk) as (eqk & gtk & SP & SW & Eq & Gt).
  destruct (run_ok eqk gtk impl SP lt SW Eq Gt (nth_error h0) (with_draws ops rs) [] (snd (init zk zv (h0, l0)))) as [_ (hd2 & ps2 & Ek & R2 & _)]; [exists (length h0), []; split; auto; split; [apply fresh_rep|constructor]|].
  rewrite run_with in Ek. fold stored in Ek. rewrite <- Ek. pose proof (r_len _ _ _ _ R) as L1. pose proof (r_len _ _ _ _ R2) as L2. unfold state_of in L1. rewrite L1 in L2. rewrite L2. unfold zlen, kvs. now rewrite map_length.
Qed.
Lemma ghost_len : zlen ghost = zlen stored.
Proof using Hk zk zv h0 l0.
  destruct (reach_heights (fun _ => 0)) as (ps & R & _ & H). rewrite <- (reach_len _ _ _ R). rewrite <- (vmap_len (height (fun _ => 0))), <- H. unfold zlen, hts. now rewrite map_length.
Qed.
Lemma reach_average (hit stop : K -> bool) key : (forall k, negb (hit k) && negb (stop k) = lt k key) -> zlen stored < 2 ^ 39 ->
  twice_average_at_most ops (fun ops' => keys_read hit stop (snd (run (map_step impl) ops' (snd (init zk zv (h0, l0)))))) (5 * Z.log2 (zlen stored) + 13).
Proof using Hk.
  intros Hp Hn. destruct (kind_spec _ _ Hk) as (_ & _ & _ & SW & _ & _). unfold twice_average_at_most. rewrite (sum_draws_seqs _ _ uint64s_width).
  rewrite (sum_seqs_E _ _ (length ops) 0), <- draws_total. set (w := Z.to_nat (2 ^ 24)). set (p := Z.to_nat (2 ^ 40)). assert (Ep : Z.of_nat p = 2 ^ 40) by (unfold p; rewrite Z2Nat.id; lia).
  pose proof (Zle_0_nat (length stored)) as Hn0. fold (zlen stored) in Hn0.
  set (lg := S (Z.to_nat (Z.log2 (zlen stored)))). pose proof (Z.log2_nonneg (zlen stored)).
  assert (Z.log2 (zlen stored) <= 38). { destruct (Z.eq_dec (zlen stored) 0) as [->|]; [cbn; lia|]. assert (Z.log2 (zlen stored) < 39) by (apply Z.log2_lt_pow2; lia). lia. }
  assert (Elg : Z.of_nat lg = Z.log2 (zlen stored) + 1) by lia.
  assert (Hlg : zlen stored < 2 ^ Z.of_nat lg). { rewrite Elg. destruct (Z.eq_dec (zlen stored) 0) as [->|]; [cbn; lia|]. replace (Z.log2 (zlen stored) + 1) with (Z.succ (Z.log2 (zlen stored))) by lia. apply Z.log2_spec. lia. }
  replace (5 * Z.log2 (zlen stored) + 13) with (5 * Z.of_nat lg + 8) by lia.
  assert (G : ghost_ok (length ops) ghost). { apply (ghosts_ok lt SW ops 0 []). split; [intros i []|]. split; [constructor|]. intros t Ht. cbn. lia. }
  eapply Z.le_trans; [|apply (average_levels w p Ep (length ops) ghost (fun q => lt (fst q) key) lg G); [rewrite ghost_len; exact Hlg|lia]].
  apply Z.mul_le_mono_nonneg_l; [lia|]. apply E_le. intros rho. destruct (reach_heights rho) as (ps & R & S & Hh). unfold state_of in R.
  pose proof (keys_read_bound lt SW hit stop key (nth_error h0) _ ps _ lg R S ltac:(lia) Hp) as [_ B]. eapply Z.le_trans; [exact B|]. apply Z.eq_le_incl.
  assert (Ec : map ch ps = map (height rho) (map snd ghost)). { transitivity (map snd (hts ps)); [unfold hts; now rewrite map_map|]. rewrite Hh. unfold vmap. now rewrite !map_map. }
  assert (Em : rev (map snd (filter (fun q => lt (fst q) key) (hts ps))) = map (height rho) (rev (map snd (filter (fun q => lt (fst q) key) ghost)))).
  { rewrite Hh, (vmap_filter (height rho) (fun x => lt x key)). unfold vmap. rewrite map_map, map_rev, map_map. reflexivity. }
  rewrite Ec, Em. reflexivity.
Qed.

Lemma reach_worst (hit stop : K -> bool) key rs : (forall k, negb (hit k) && negb (stop k) = lt k key) ->
  0 <= keys_read hit stop (state_of rs) <= zlen stored + Z.of_nat (sl_level (snd (state_of rs))).
Proof using Hk.
  intros Hp. destruct (kind_spec _ _ Hk) as (eqk & gtk & SP & SW & Eq & Gt).
  destruct (run_ok eqk gtk impl SP lt SW Eq Gt (nth_error h0) (with_draws ops rs) [] (snd (init zk zv (h0, l0)))) as [_ (hd & ps & Ek & R & S)]; [exists (length h0), []; split; auto; split; [apply fresh_rep|constructor]|].
  fold (state_of rs) in R. rewrite <- (reach_len _ _ _ R). apply (keys_read_worst lt SW hit stop key (nth_error h0) hd); auto. now rewrite Ek.
Qed.
Lemma reach_links : twice_average_at_most ops (fun ops' => links (snd (run (map_step impl) ops' (snd (init zk zv (h0, l0)))))) (4 * zlen stored).
Proof using Hk.
  destruct (kind_spec _ _ Hk) as (_ & _ & _ & SW & _ & _). unfold twice_average_at_most. rewrite (sum_draws_seqs _ _ uint64s_width).
  rewrite (sum_seqs_E _ _ (length ops) 0), <- draws_total. set (w := Z.to_nat (2 ^ 24)). set (p := Z.to_nat (2 ^ 40)). assert (Ep : Z.of_nat p = 2 ^ 40) by (unfold p; rewrite Z2Nat.id; lia).
  assert (G : ghost_ok (length ops) ghost). { apply (ghosts_ok lt SW ops 0 []). split; [intros i []|]. split; [constructor|]. intros t Ht. cbn. lia. }
  pose proof (average_total w p Ep (length ops) ghost G) as B. rewrite ghost_len in B.
  match type of B with ?X <= _ => match goal with |- 2 * ?Y <= _ => enough (Y <= X) by lia end end.
  apply E_le. intros rho. destruct (reach_heights rho) as (ps & R & S & Hh). unfold state_of in R. apply Z.eq_le_incl.
  rewrite (links_ok (nth_error h0) _ ps _ R), total_levels.
  - assert (Ec : map ch ps = map (height rho) (map snd ghost)). { transitivity (map snd (hts ps)); [unfold hts; now rewrite map_map|]. rewrite Hh. unfold vmap. now rewrite !map_map. }
    now rewrite Ec.
  - intros x I. apply in_map_iff in I as (c & <- & I). pose proof (r_level _ _ _ _ R) as Lv. pose proof (r_height _ _ _ _ R c I) as Lc. unfold skipListMaxLevel in Lv. lia.
Qed.
Lemma reach_rep rs : exists hd ps, rep (nth_error h0) hd ps (state_of rs) /\ ksorted lt (kvs ps).
Proof using Hk.
  destruct (kind_spec _ _ Hk) as (eqk & gtk & SP & SW & Eq & Gt).
  destruct (run_ok eqk gtk impl SP lt SW Eq Gt (nth_error h0) (with_draws ops rs) [] (snd (init zk zv (h0, l0)))) as [_ (hd & ps & Ek & R & S)]; [exists (length h0), []; split; auto; split; [apply fresh_rep|constructor]|].
  exists hd, ps. split; [exact R|]. now rewrite Ek.
Qed.
Lemma reach_search_worst key f rs : searched lt key f -> 0 <= f (state_of rs) <= zlen stored + Z.of_nat (sl_level (snd (state_of rs))) + 1.
Proof using Hk.
  intros (hit & stop & Hp & Hf). destruct (reach_rep rs) as (hd & ps & R & S). specialize (Hf (nth_error h0) hd ps _ R). pose proof (reach_worst hit stop key rs Hp). lia.
Qed.
Lemma reach_search_average key f : searched lt key f -> zlen stored < 2 ^ 39 ->
  twice_average_at_most ops (fun ops' => f (snd (run (map_step impl) ops' (snd (init zk zv (h0, l0)))))) (5 * Z.log2 (zlen stored) + 15).
Proof using Hk.
  intros (hit & stop & Hp & Hf) Hn. pose proof (reach_average hit stop key Hp Hn) as B. unfold twice_average_at_most in *. rewrite (sum_draws_seqs _ _ uint64s_width) in *.
  rewrite (sum_seqs_E _ _ (length ops) 0) in *. rewrite <- draws_total in *. set (w := Z.to_nat (2 ^ 24)) in *. set (p := Z.to_nat (2 ^ 40)) in *.
  set (g := fun rho : nat -> Z => keys_read hit stop (state_of (map rho (seq 0 (length ops))))).
  assert (L : E w p (seq 0 (length ops)) (fun rho => f (snd (run (map_step impl) (with_draws ops (map rho (seq 0 (length ops)))) (snd (init zk zv (h0, l0)))))) <= E w p (seq 0 (length ops)) (fun rho => g rho + 1)).
  { apply E_le. intros rho. destruct (reach_rep (map rho (seq 0 (length ops)))) as (hd & ps & R & S). specialize (Hf (nth_error h0) hd ps _ R). unfold g, state_of in *. lia. }
  rewrite E_add, E_const, seq_length in L. change (2 * E w p (seq 0 (length ops)) g <= (5 * Z.log2 (zlen stored) + 13) * T w p (length ops)) in B. lia.
Qed.
End Reachable.
End Final.
