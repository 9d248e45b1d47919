From Verif Require Import BaseLemmas Spec Proof_Mem Model_Transform.

(** *** Window loops *)
Section Windows.
Context {T : Type}.
Implicit Types (l pre rest : list T).

Lemma zget_mid pre (x : T) rest : zget (pre ++ x :: rest) (zlen pre) = Some x.
Proof. rewrite zget_app_r by lia. rewrite Z.sub_diag. reflexivity. Qed.

Lemma zupd_mid pre (x y : T) rest : zupd (pre ++ x :: rest) (zlen pre) y = pre ++ y :: rest.
Proof.
  unfold zupd, zlen. destruct (Z.ltb_spec (Z.of_nat (length pre)) 0); [lia|].
  rewrite Nat2Z.id. rewrite upd_app_r by lia. now rewrite Nat.sub_diag.
Qed.

Lemma wload_mid pre (x : T) rest : wload (zlen pre) (pre ++ x :: rest) = (Ok x, pre ++ x :: rest).
Proof. apply wload_ok. apply zget_mid. Qed.
Lemma wstore_mid pre (x y : T) rest : wstore (zlen pre) y (pre ++ x :: rest) = (Ok tt, pre ++ y :: rest).
Proof. unfold wstore. rewrite zget_mid. now rewrite zupd_mid. Qed.

Lemma snoc_assoc pre (x : T) rest : pre ++ x :: rest = (pre ++ [x]) ++ rest.
Proof. now rewrite <- app_assoc. Qed.
Lemma zlen_snoc pre (x : T) : zlen (pre ++ [x]) = zlen pre + 1.
Proof. now rewrite zlen_app. Qed.

Lemma Transform_loop_spec {St} (op : St -> T -> T * St) rest : forall pre st,
  Transform_loop op (length rest) (zlen pre) st (pre ++ rest) =
  (Ok (snd (map_st op st rest)), pre ++ fst (map_st op st rest)).
Proof.
  induction rest as [|x rest IH]; intros pre st; [reflexivity|].
  cbn [length Transform_loop]. rewrite (bind_Ok _ _ _ _ _ (wload_mid pre x rest)).
  simpl map_st. destruct (op st x) as [y st1].
  rewrite (bind_Ok _ _ _ _ _ (wstore_mid pre x y rest)).
  rewrite snoc_assoc, <- (zlen_snoc pre y), IH.
  destruct (map_st op st1 rest). simpl. now rewrite <- app_assoc.
Qed.

Lemma zlen_to_nat l : Z.to_nat (zlen l) = length l.
Proof. unfold zlen. lia. Qed.

Lemma Transform_spec {St} (op : St -> T -> T * St) st l :
  Transform op st l = (Ok (snd (map_st op st l)), fst (map_st op st l)).
Proof. unfold Transform, bind, wlen. rewrite zlen_to_nat. apply (Transform_loop_spec op l []). Qed.

Lemma ReplaceIf_loop_spec {St} (pred : St -> T -> bool * St) new rest : forall pre st,
  ReplaceIf_loop pred new (length rest) (zlen pre) st (pre ++ rest) =
  (let p := map_st (fun s x => let '(c, s') := pred s x in (if c : bool then new else x, s')) st rest in
   (Ok (snd p), pre ++ fst p)).
Proof.
  induction rest as [|x rest IH]; intros pre st; [reflexivity|].
  cbn [length ReplaceIf_loop]. rewrite (bind_Ok _ _ _ _ _ (wload_mid pre x rest)).
  simpl map_st. destruct (pred st x) as [c st1].
  assert (Hs : (if c then wstore (zlen pre) new else ret tt) (pre ++ x :: rest)
               = (Ok tt, pre ++ (if c then new else x) :: rest)).
  { destruct c; [apply wstore_mid|reflexivity]. }
  rewrite (bind_Ok _ _ _ _ _ Hs).
  rewrite snoc_assoc, <- (zlen_snoc pre (if c then new else x)), IH.
  cbv zeta. destruct (map_st _ st1 rest). simpl. now rewrite <- app_assoc.
Qed.

Lemma ReplaceIf_spec {St} (pred : St -> T -> bool * St) new st l :
  ReplaceIf pred new st l =
  (let p := map_st (fun s x => let '(c, s') := pred s x in (if c : bool then new else x, s')) st l in
   (Ok (snd p), fst p)).
Proof. unfold ReplaceIf, bind, wlen. rewrite zlen_to_nat. apply (ReplaceIf_loop_spec pred new l []). Qed.

Lemma Replace_loop_spec eqb (old new : T) rest : forall pre,
  Replace_loop eqb old new (length rest) (zlen pre) (pre ++ rest) =
  (Ok tt, pre ++ map (fun x => if eqb x old then new else x) rest).
Proof.
  induction rest as [|x rest IH]; intros pre; [reflexivity|].
  cbn [length Replace_loop]. rewrite (bind_Ok _ _ _ _ _ (wload_mid pre x rest)).
  assert (Hs : (if eqb x old then wstore (zlen pre) new else ret tt) (pre ++ x :: rest)
               = (Ok tt, pre ++ (if eqb x old then new else x) :: rest)).
  { destruct (eqb x old); [apply wstore_mid|reflexivity]. }
  rewrite (bind_Ok _ _ _ _ _ Hs).
  rewrite snoc_assoc, <- (zlen_snoc pre (if eqb x old then new else x)), IH.
  simpl. now rewrite <- app_assoc.
Qed.
Lemma Replace_spec eqb (old new : T) l :
  Replace eqb old new l = (Ok tt, map (fun x => if eqb x old then new else x) l).
Proof. unfold Replace, bind, wlen. rewrite zlen_to_nat. apply (Replace_loop_spec eqb old new l []). Qed.

(** Generate: the i-th call's value lands at i. *)
Fixpoint gen_list {St} (gen : St -> T * St) (n : nat) (st : St) : list T * St :=
  match n with
  | O => ([], st)
  | S n' => let '(v, st1) := gen st in let '(vs, st2) := gen_list gen n' st1 in (v :: vs, st2)
  end.
Lemma Generate_loop_spec {St} (gen : St -> T * St) rest : forall pre st,
  Generate_loop gen (length rest) (zlen pre) st (pre ++ rest) =
  (Ok (snd (gen_list gen (length rest) st)), pre ++ fst (gen_list gen (length rest) st)).
Proof.
  induction rest as [|x rest IH]; intros pre st; [reflexivity|].
  cbn [length Generate_loop gen_list]. destruct (gen st) as [v st1].
  rewrite (bind_Ok _ _ _ _ _ (wstore_mid pre x v rest)).
  rewrite snoc_assoc, <- (zlen_snoc pre v), IH.
  destruct (gen_list gen (length rest) st1). simpl. now rewrite <- app_assoc.
Qed.
Lemma Generate_spec {St} (gen : St -> T * St) st l :
  Generate gen st l = (Ok (snd (gen_list gen (length l) st)), fst (gen_list gen (length l) st)).
Proof. unfold Generate, bind, wlen. rewrite zlen_to_nat. apply (Generate_loop_spec gen l []). Qed.

(** In-place compaction: state is kept ++ (l0 from |kept| on). *)
Lemma compact_load kept l0 i x :
  zlen kept <= i -> zget l0 i = Some x -> zget (kept ++ skipn (length kept) l0) i = Some x.
Proof.
  intros Hi Hx. pose proof (zget_Some_range _ _ _ Hx) as Hr. rewrite zget_app_r by auto.
  unfold zget in *. unfold zlen in *. destruct (Z.ltb_spec i 0); [lia|].
  destruct (Z.ltb_spec (i - Z.of_nat (length kept)) 0); [lia|].
  rewrite nth_error_skipn. rewrite <- Hx. f_equal. lia.
Qed.

Lemma compact_store kept l0 (v : T) :
  zlen kept < zlen l0 ->
  wstore (zlen kept) v (kept ++ skipn (length kept) l0) =
  (Ok tt, (kept ++ [v]) ++ skipn (length (kept ++ [v])) l0).
Proof.
  intros H. destruct (skipn (length kept) l0) as [|y r] eqn:E.
  - exfalso. assert (length (skipn (length kept) l0) = O) by now rewrite E.
    rewrite skipn_length in *. unfold zlen in H. lia.
  - rewrite wstore_mid. rewrite <- app_assoc. f_equal. f_equal. simpl. f_equal.
    rewrite app_length, Nat.add_comm. simpl length. rewrite <- (skipn_skipn' 1), E. reflexivity.
Qed.

Lemma RemoveIf_loop_spec {St} (cond : St -> T -> bool * St) l0 rest : forall done kept st,
  l0 = done ++ rest -> (length kept <= length done)%nat ->
  RemoveIf_loop cond (length rest) (zlen done) (zlen kept) st (kept ++ skipn (length kept) l0) =
  (let p := reject_st cond st rest in
   let k := kept ++ fst p in
   (Ok (zlen k, snd p), k ++ skipn (length k) l0)).
Proof.
  induction rest as [|x rest IH]; intros done kept st E Hk.
  - simpl. now rewrite app_nil_r.
  - cbn [length RemoveIf_loop].
    assert (Hx : zget l0 (zlen done) = Some x) by (rewrite E; apply zget_mid).
    rewrite (bind_Ok _ _ _ _ _ (wload_ok _ _ _ (compact_load kept l0 (zlen done) x ltac:(unfold zlen; lia) Hx))).
    simpl reject_st. destruct (cond st x) as [c st1].
    assert (E' : l0 = (done ++ [x]) ++ rest) by (rewrite E; apply snoc_assoc).
    assert (Hl : zlen kept < zlen l0).
    { rewrite E. unfold zlen. rewrite app_length. simpl. lia. }
    destruct c; cbn [negb].
    + rewrite <- (zlen_snoc done x), (IH (done ++ [x]) kept st1 E') by (rewrite app_length; lia).
      destruct (reject_st cond st1 rest). reflexivity.
    + rewrite (bind_Ok _ _ _ _ _ (compact_store kept l0 x Hl)).
      rewrite <- (zlen_snoc done x), <- (zlen_snoc kept x), (IH (done ++ [x]) (kept ++ [x]) st1 E')
        by (rewrite !app_length; simpl; lia).
      destruct (reject_st cond st1 rest). simpl. rewrite <- app_assoc. reflexivity.
Qed.

Lemma RemoveIf_window {St} (cond : St -> T -> bool * St) st l :
  (n <- wlen ;; RemoveIf_loop cond (Z.to_nat n) 0 0 st) l =
  (let p := reject_st cond st l in
   (Ok (zlen (fst p), snd p), fst p ++ skipn (length (fst p)) l)).
Proof.
  unfold bind, wlen. rewrite zlen_to_nat. apply (RemoveIf_loop_spec cond l l [] [] st); auto.
Qed.

Lemma Remove_loop_RemoveIf eqb (x : T) n : forall i j l,
  Remove_loop eqb x n i j l =
  (let '(o, l') := RemoveIf_loop (fun (s : unit) v => (eqb v x, s)) n i j tt l in (omap fst o, l')).
Proof.
  induction n as [|n IH]; intros; [reflexivity|].
  cbn [Remove_loop RemoveIf_loop]. unfold bind, wload.
  destruct (zget l i) as [v|]; [|reflexivity]. destruct (eqb v x); simpl; [apply IH|].
  unfold wstore. destruct (zget l j); [apply IH|reflexivity].
Qed.

Lemma reject_filter (f : T -> bool) l : fst (reject_st (fun (s : unit) v => (f v, s)) tt l) = filter (fun v => negb (f v)) l.
Proof.
  induction l as [|x l IH]; [reflexivity|]. simpl. destruct (reject_st _ tt l) as [ys []].
  simpl in *. destruct (f x); simpl; congruence.
Qed.

Lemma Remove_window eqb (x : T) l :
  (n <- wlen ;; Remove_loop eqb x (Z.to_nat n) 0 0) l =
  (let p := filter (fun v => negb (eqb v x)) l in (Ok (zlen p), p ++ skipn (length p) l)).
Proof.
  unfold bind at 1, wlen. rewrite Remove_loop_RemoveIf.
  pose proof (RemoveIf_window (fun (s : unit) v => (eqb v x, s)) tt l) as H.
  unfold bind, wlen in H. rewrite H. cbv zeta. rewrite reject_filter. reflexivity.
Qed.

(** Unique *)
Lemma Unique_loop_spec eqb l0 (PE : partial_equiv eqb) rest : forall done kept prev lastin,
  l0 = done ++ rest -> (length kept <= length done)%nat ->
  (eqb lastin prev = true \/ lastin = prev) ->
  Unique_loop eqb (length rest) (zlen done) (zlen kept) prev (kept ++ skipn (length kept) l0) =
  (let k := kept ++ drop_repeats_after eqb lastin rest in
   (Ok (zlen k), k ++ skipn (length k) l0)).
Proof.
  destruct PE as [Hsym Htr].
  induction rest as [|x rest IH]; intros done kept prev lastin E Hk Hp.
  - simpl. now rewrite app_nil_r.
  - cbn [length Unique_loop].
    assert (Hx : zget l0 (zlen done) = Some x) by (rewrite E; apply zget_mid).
    rewrite (bind_Ok _ _ _ _ _ (wload_ok _ _ _ (compact_load kept l0 (zlen done) x ltac:(unfold zlen; lia) Hx))).
    assert (E' : l0 = (done ++ [x]) ++ rest) by (rewrite E; apply snoc_assoc).
    assert (Hl : zlen kept < zlen l0).
    { rewrite E. unfold zlen. rewrite app_length. simpl. lia. }
    assert (Heq : eqb x prev = eqb x lastin).
    { destruct Hp as [Hp| ->]; auto.
      destruct (eqb x prev) eqn:E1, (eqb x lastin) eqn:E2; auto.
      - rewrite <- E2. symmetry. eapply Htr; eauto.
      - rewrite <- E1. eapply Htr; eauto. }
    simpl drop_repeats_after. rewrite Heq. destruct (eqb x lastin) eqn:Ex; cbn [negb].
    + rewrite <- (zlen_snoc done x), (IH (done ++ [x]) kept prev x E'); auto.
      rewrite app_length; lia.
    + rewrite (bind_Ok _ _ _ _ _ (compact_store kept l0 x Hl)).
      rewrite <- (zlen_snoc done x), <- (zlen_snoc kept x), (IH (done ++ [x]) (kept ++ [x]) x x E')
        by (auto; rewrite !app_length; simpl; lia).
      cbv zeta. rewrite <- app_assoc. reflexivity.
Qed.

(** Fill *)
Lemma wrap64_small z : - 2^63 <= z < 2^63 -> wrap64 z = z.
Proof. intros H. unfold wrap64. rewrite Z.mod_small by lia. lia. Qed.

Lemma double_loop_spec fuel : forall l j p,
  0 < p <= j -> j mod p = 0 -> (j < zlen l -> j < 2^62) -> zlen l <= 2^62 ->
  zlen l <= j * 2 ^ Z.of_nat fuel ->
  (forall i, 0 <= i < Z.min j (zlen l) -> zget l i = zget l (i mod p)) ->
  exists l', double_loop fuel j l = (Ok tt, l') /\ zlen l' = zlen l /\
    (forall i, 0 <= i < zlen l -> zget l' i = zget l (i mod p)).
Proof.
  induction fuel as [|f IH]; intros l j p Hp Hj Hj62 H62 Hf Hinv.
  - simpl. unfold bind, wlen. destruct (Z.ltb_spec j (zlen l)).
    + simpl in Hf. lia.
    + exists l. split; [reflexivity|]. split; auto. intros i Hi. apply Hinv. lia.
  - cbn [double_loop]. unfold bind at 1, wlen. destruct (Z.ltb_spec j (zlen l)) as [L|L].
    2:{ exists l. split; [reflexivity|]. split; auto. intros i Hi. apply Hinv. lia. }
    rewrite (bind_Ok _ _ _ _ _ (wcopy_ok l j 0 j ltac:(lia) ltac:(lia) ltac:(lia))).
    specialize (Hj62 L). rewrite wrap64_small by lia.
    set (n := Z.min (zlen l - j) (j - 0)).
    set (l1 := zwrite l j (zsub l 0 (0 + n))).
    assert (Hn : 0 < n <= j /\ j + n <= zlen l) by lia.
    assert (Hzs : zlen (zsub l 0 (0 + n)) = n) by (rewrite zlen_zsub; lia).
    assert (Hl1 : zlen l1 = zlen l) by (unfold l1; rewrite zlen_zwrite; lia).
    assert (Hg : forall i, 0 <= i -> zget l1 i = if (j <=? i) && (i <? j + n) then zget l (i - j) else zget l i).
    { intros i Hi. unfold l1. rewrite zget_zwrite by lia. rewrite Hzs.
      destruct ((j <=? i) && (i <? j + n)) eqn:Ec; auto.
      rewrite zget_zsub by lia. destruct (Z.ltb_spec (i - j) (0 + n - 0)); [f_equal; lia|lia]. }
    assert (Hlow : forall i, 0 <= i < j -> zget l1 i = zget l i).
    { intros i Hi. rewrite Hg by lia. destruct (Z.leb_spec j i); [lia|reflexivity]. }
    destruct (IH l1 (j * 2) p) as (l' & Hr & Hl' & Hg'); try lia.
    + replace (j * 2) with (2 * j) by lia. rewrite Z.mul_mod, Hj, Z.mul_0_r by lia. apply Z.mod_0_l. lia.
    + rewrite Nat2Z.inj_succ, Z.pow_succ_r in Hf by lia. lia.
    + intros i Hi. assert (Hm : 0 <= i mod p < p) by (apply Z.mod_pos_bound; lia).
      rewrite (Hlow (i mod p)) by lia. rewrite Hg by lia.
      destruct (Z.leb_spec j i), (Z.ltb_spec i (j + n)); simpl.
      * rewrite Hinv by lia. f_equal. rewrite Zminus_mod, Hj, Z.sub_0_r. apply Z.mod_mod. lia.
      * lia.
      * apply Hinv. lia.
      * apply Hinv. lia.
    + exists l'. split; auto. split; [lia|]. intros i Hi. rewrite Hg' by lia.
      apply Hlow. pose proof (Z.mod_pos_bound i p ltac:(lia)). lia.
Qed.

Lemma zget_repeat_ext l (v : T) : (forall i, 0 <= i < zlen l -> zget l i = Some v) -> l = repeat v (length l).
Proof.
  intros H. apply zlist_eq_len.
  - now rewrite zlen_repeat.
  - intros i Hi. rewrite H by auto. rewrite zget_repeat. unfold zlen in Hi. destruct (Z.leb_spec 0 i), (Z.ltb_spec i (Z.of_nat (length l))); simpl; auto; lia.
Qed.

Lemma Fill_spec (v : T) l : zlen l <= 2^62 -> Fill v l = (Ok tt, repeat v (length l)).
Proof.
  intros H. unfold Fill, bind at 1, wlen. destruct (Z.eqb_spec (zlen l) 0).
  - destruct l; [reflexivity|]. rewrite zlen_cons in *. pose proof (zlen_nonneg l). lia.
  - pose proof (zlen_nonneg l). destruct l as [|x l]; [rewrite zlen_nil in *; lia|].
    assert (Hs : wstore 0 v (x :: l) = (Ok tt, v :: l)) by apply (wstore_mid [] x v l).
    rewrite (bind_Ok _ _ _ _ _ Hs).
    destruct (double_loop_spec 64 (v :: l) 1 1) as (l' & Hr & Hl & Hg); rewrite ?zlen_cons in *; try lia.
    + intros i Hi. f_equal. symmetry. apply Z.mod_small. lia.
    + rewrite Hr. f_equal. rewrite (zget_repeat_ext l' v).
      * f_equal. cbn [length]. unfold zlen in Hl. lia.
      * intros i Hi. rewrite Hg by lia. rewrite Z.mod_1_r. reflexivity.
Qed.

(** Above 2^62 elements (possible only for zero-size T) the doubling index
    wraps around and Fill panics. *)
Lemma double_loop_overflow fuel : forall l k,
  (k <= 62)%nat -> (63 - k < fuel)%nat -> 2^62 < zlen l -> zlen l <= max_int ->
  exists l', double_loop fuel (2 ^ Z.of_nat k) l = (Panic, l').
Proof.
  induction fuel as [|f IH]; intros l k Hk Hf Hl Hm; [lia|].
  assert (Hpk : 0 < 2 ^ Z.of_nat k <= 2^62).
  { split; [apply Z.pow_pos_nonneg; lia|apply Z.pow_le_mono_r; lia]. }
  cbn [double_loop]. unfold bind at 1, wlen. destruct (Z.ltb_spec (2 ^ Z.of_nat k) (zlen l)) as [L|L]; [|lia].
  rewrite (bind_Ok _ _ _ _ _ (wcopy_ok l (2 ^ Z.of_nat k) 0 (2 ^ Z.of_nat k) ltac:(lia) ltac:(lia) ltac:(lia))).
  match goal with |- exists l', double_loop _ _ ?x = _ => set (l1 := x) end.
  assert (Hl1 : zlen l1 = zlen l).
  { unfold l1. rewrite zlen_zwrite; rewrite ?zlen_zsub; lia. }
  destruct (Nat.eq_dec k 62) as [->|].
  - change (wrap64 (2 ^ Z.of_nat 62 * 2)) with (- 2^63).
    exists l1. destruct f; cbn [double_loop]; unfold bind at 1, wlen;
    (destruct (Z.ltb_spec (- 2^63) (zlen l1)); [|lia]).
    + lia.
    + unfold bind, wcopy. destruct (Z.leb_spec 0 (- 2^63)); [lia|reflexivity].
  - replace (2 ^ Z.of_nat k * 2) with (2 ^ Z.of_nat (S k)) by (rewrite Nat2Z.inj_succ, Z.pow_succ_r; lia).
    rewrite wrap64_small.
    + apply IH; lia.
    + assert (2 ^ Z.of_nat (S k) <= 2^62) by (apply Z.pow_le_mono_r; lia).
      assert (0 < 2 ^ Z.of_nat (S k)) by (apply Z.pow_pos_nonneg; lia). lia.
Qed.

Lemma Fill_overflow (v : T) l : 2^62 < zlen l <= max_int -> exists l', Fill v l = (Panic, l').
Proof.
  intros H. unfold Fill, bind at 1, wlen. destruct (Z.eqb_spec (zlen l) 0); [lia|].
  destruct l as [|x l]; [rewrite zlen_nil in *; lia|].
  assert (Hs : wstore 0 v (x :: l) = (Ok tt, v :: l)) by apply (wstore_mid [] x v l).
  rewrite (bind_Ok _ _ _ _ _ Hs).
  apply (double_loop_overflow 64 (v :: l) 0); rewrite ?zlen_cons in *; lia.
Qed.

(** Reverse *)
Lemma Reverse_loop_spec fuel : forall l i j,
  0 <= i -> j < zlen l -> i <= j + 1 -> j - i <= Z.of_nat fuel ->
  exists l', Reverse_loop fuel i j l = (Ok tt, l') /\ zlen l' = zlen l /\
    forall k, 0 <= k -> zget l' k = if (i <=? k) && (k <=? j) then zget l (i + j - k) else zget l k.
Proof.
  induction fuel as [|f IH]; intros l i j Hi Hj Hij Hf.
  - simpl. destruct (Z.ltb_spec i j); [lia|]. exists l. split; [reflexivity|]. split; auto.
    intros k Hk. destruct (Z.leb_spec i k), (Z.leb_spec k j); simpl; auto. f_equal. lia.
  - cbn [Reverse_loop]. destruct (Z.ltb_spec i j) as [L|L].
    2:{ exists l. split; [reflexivity|]. split; auto.
        intros k Hk. destruct (Z.leb_spec i k), (Z.leb_spec k j); simpl; auto. f_equal. lia. }
    rewrite (bind_Ok _ _ _ _ _ (wswap_ok l i j ltac:(lia) ltac:(lia))).
    destruct (IH (zswap l i j) (i + 1) (j - 1)) as (l' & Hr & Hl & Hg); rewrite ?zlen_zswap; try lia.
    exists l'. split; auto. rewrite zlen_zswap in Hl. split; auto.
    intros k Hk. rewrite Hg by auto.
    destruct (Z.leb_spec (i + 1) k), (Z.leb_spec k (j - 1)), (Z.leb_spec i k), (Z.leb_spec k j); simpl; try lia;
      rewrite zget_zswap by lia.
    all: repeat match goal with |- context [?a =? ?b] => destruct (Z.eqb_spec a b) end; try lia; try (f_equal; lia).
Qed.

Lemma zget_rev l k : 0 <= k < zlen l -> zget (rev l) k = zget l (zlen l - 1 - k).
Proof.
  revert k. induction l as [|x l IH]; intros k Hk; [unfold zlen in Hk; simpl in Hk; lia|].
  rewrite zlen_cons in *. cbn [rev]. rewrite zget_app by lia.
  assert (Hr : zlen (rev l) = zlen l) by (unfold zlen; now rewrite rev_length). rewrite Hr.
  destruct (Z.ltb_spec k (zlen l)).
  - rewrite IH by lia. rewrite zget_cons_S by lia. f_equal. lia.
  - replace (k - zlen l) with 0 by lia. replace (1 + zlen l - 1 - k) with 0 by lia. reflexivity.
Qed.

Lemma Reverse_spec l : Reverse l = (Ok tt, rev l).
Proof.
  unfold Reverse, bind, wlen. pose proof (zlen_nonneg l).
  destruct (Reverse_loop_spec (Z.to_nat (zlen l)) l 0 (zlen l - 1)) as (l' & Hr & Hl & Hg); try lia.
  rewrite Hr. f_equal. apply zlist_eq_len.
  - unfold zlen in *. rewrite rev_length. lia.
  - intros i Hi. rewrite Hg by lia. rewrite zget_rev by lia.
    destruct (Z.leb_spec 0 i), (Z.leb_spec i (zlen l - 1)); simpl; try lia; f_equal; lia.
Qed.

Lemma Shuffle_spec swaps : forall l,
  Forall (fun p => 0 <= fst p < zlen l /\ 0 <= snd p < zlen l) swaps ->
  exists l', Shuffle swaps l = (Ok tt, l') /\ Permutation l' l.
Proof.
  induction swaps as [|[i j] swaps IH]; intros l H; [exists l; split; [reflexivity|auto]|].
  cbn [Shuffle]. inversion H as [|? ? Hij Hrest]; subst. simpl in Hij.
  rewrite (bind_Ok _ _ _ _ _ (wswap_ok l i j ltac:(lia) ltac:(lia))).
  destruct (IH (zswap l i j)) as (l' & Hr & Hp).
  - rewrite zlen_zswap. auto.
  - exists l'. split; auto. rewrite Hp. apply zswap_perm.
Qed.

Lemma TransformCopy_loop_spec {R St} (op : St -> T -> R * St) (a : list T) : forall (pre zs : list R) st,
  length zs = length a ->
  TransformCopy_loop op a (zlen pre) st (pre ++ zs) = (Ok (snd (map_st op st a)), pre ++ fst (map_st op st a)).
Proof.
  induction a as [|x a IH]; intros pre zs st Hl.
  - destruct zs; [reflexivity|discriminate].
  - destruct zs as [|z zs]; [discriminate|]. cbn [TransformCopy_loop map_st]. destruct (op st x) as [y st1].
    assert (Hs : wstore (zlen pre) y (pre ++ z :: zs) = (Ok tt, pre ++ y :: zs)).
    { unfold wstore. rewrite zget_app_r, Z.sub_diag by lia. simpl. f_equal.
      unfold zupd, zlen. destruct (Z.ltb_spec (Z.of_nat (length pre)) 0); [lia|].
      rewrite Nat2Z.id, upd_app_r, Nat.sub_diag by lia. reflexivity. }
    rewrite (bind_Ok _ _ _ _ _ Hs). simpl in Hl.
    replace (pre ++ y :: zs) with ((pre ++ [y]) ++ zs) by now rewrite <- app_assoc.
    replace (zlen pre + 1) with (zlen (pre ++ [y])) by now rewrite zlen_app.
    rewrite IH by lia. destruct (map_st op st1 a). simpl. now rewrite <- app_assoc.
Qed.
End Windows.
