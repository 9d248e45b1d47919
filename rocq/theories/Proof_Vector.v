From Verif Require Import BaseLemmas Spec Trace Proof_Mem Proof_Peek Model_Transform Proof_Transform Proof_TransformMem Model_Vector Spec_Vector.

Section Vec.
Context {T : Type}.
Implicit Types (m : mem T) (s x : slice).

Ltac case_all :=
  repeat match goal with
  | |- context [(?a <=? ?b)] => destruct (Z.leb_spec a b)
  | |- context [(?a <? ?b)] => destruct (Z.ltb_spec a b)
  | |- context [(?a =? ?b)%nat] => destruct (Nat.eqb_spec a b)
  | |- context [(?a =? ?b)] => destruct (Z.eqb_spec a b)
  end; simpl.

Lemma bind_lift_o {S A B} (o : outcome A) (k : A -> M S B) (s : S) a : o = Ok a -> bind (lift_o o) k s = k a s.
Proof. intros ->. reflexivity. Qed.
Lemma bind_lift_o_panic {S A B} (o : outcome A) (k : A -> M S B) (s : S) : o = Panic -> bind (lift_o o) k s = (Panic, s).
Proof. intros ->. reflexivity. Qed.
Lemma bind_lift_mem {A B} (p : M (mem T) A) (k : A -> M (cell T) B) m (h : slice) a m' :
  p m = (Ok a, m') -> bind (lift_mem p) k (m, h) = k a (m', h).
Proof. intros H. rewrite (bind_Ok _ _ _ _ _ (lift_mem_ok p m h a m' H)). reflexivity. Qed.

Lemma wrap64_id z : is_int z -> wrap64 z = z.
Proof. intros [H1 H2]. apply wrap64_small. unfold max_int in *. lia. Qed.
Lemma wrap64_over a b : is_int a -> is_int b -> max_int < a + b -> wrap64 (a + b) < 0.
Proof.
  unfold is_int, max_int, wrap64. intros H1 H2 H3.
  assert (E : (a + b + 2^63) mod 2^64 = a + b + 2^63 - 2^64).
  { symmetry. apply Z.mod_unique with 1; lia. }
  rewrite E. lia.
Qed.
Lemma wrap64_under a b : is_int a -> is_int b -> a + b < - 2^63 -> wrap64 (a + b) = a + b + 2^64.
Proof.
  unfold is_int, max_int, wrap64. intros H1 H2 H3.
  assert (E : (a + b + 2^63) mod 2^64 = a + b + 2^63 + 2^64).
  { symmetry. apply Z.mod_unique with (-1); lia. }
  rewrite E. lia.
Qed.

(** *** Insert *)
Lemma zget_ins (l xs : list T) i k : 0 <= i <= zlen l -> 0 <= k ->
  zget (zsub l 0 i ++ xs ++ zsub l i (zlen l)) k =
  if k <? i then zget l k else if k <? i + zlen xs then zget xs (k - i) else zget l (k - zlen xs).
Proof.
  intros Hi Hk. pose proof (zlen_nonneg xs).
  rewrite zget_app by lia. rewrite zlen_zsub by lia. rewrite Z.sub_0_r.
  destruct (Z.ltb_spec k i).
  - rewrite zget_zsub by lia. destruct (Z.ltb_spec k (i - 0)); [f_equal; lia|lia].
  - rewrite zget_app by lia. destruct (Z.ltb_spec (k - i) (zlen xs)), (Z.ltb_spec k (i + zlen xs)); try lia; auto.
    rewrite zget_zsub by lia. destruct (Z.ltb_spec (k - i - zlen xs) (zlen l - i)).
    + f_equal. lia.
    + symmetry. apply zget_None. lia.
Qed.
Lemma zlen_ins (l xs : list T) i : 0 <= i <= zlen l -> zlen (zsub l 0 i ++ xs ++ zsub l i (zlen l)) = zlen l + zlen xs.
Proof. intros. rewrite !zlen_app, !zlen_zsub; lia. Qed.

(** In-place insertion, any x: what is inserted is x as it reads after the tail
    has been moved. *)
Lemma Insert_inplace zero i x m s :
  wf_slice m s -> wf_slice m x -> 0 <= i <= s_len s ->
  s_len s + s_len x <= max_int -> s_len s + s_len x <= s_cap s ->
  let s2 := mkSlice (s_arr s) (s_off s) (s_len s + s_len x) (s_cap s) in
  exists m' xs, Vector_Insert zero i x (m, s) = (Ok tt, (m', s2)) /\ wf_slice m' s2 /\ mshape m m' /\
    zlen xs = s_len x /\
    contents m' s2 = zsub (contents m s) 0 i ++ xs ++ zsub (contents m s) i (s_len s) /\
    (forall k, 0 <= k < s_len x ->
       let p := s_off x + k in
       zget xs k = peek m (s_arr x)
         (if (s_arr x =? s_arr s)%nat && (s_off s + i + s_len x <=? p) && (p <? s_off s + s_len s + s_len x)
          then p - s_len x else p)) /\
    same_except m m' (s_arr s) (s_off s + i) (s_off s + s_len s + s_len x).
Proof.
  intros Hs Hx Hi Hmax Hcap s2. pose proof Hs as (S1 & S2 & S3 & S4). pose proof Hx as (X1 & X2 & X3 & X4).
  unfold Vector_Insert. rewrite bind_get_hdr.
  rewrite wrap64_id by (unfold is_int, max_int in *; lia). cbv zeta.
  rewrite (proj2 (Z.leb_le _ _) Hcap).
  unfold reslice_to, reslice_from.
  rewrite (bind_lift_o _ _ _ _ (reslice_prefix s (s_len s + s_len x) ltac:(lia))).
  rewrite wrap64_id by (unfold is_int, max_int in *; lia). fold s2.
  rewrite (bind_lift_o _ _ _ _ (reslice_ok s2 (i + s_len x) (s_len s2) ltac:(simpl; lia) ltac:(simpl; lia))).
  set (d1 := mkSlice _ _ _ _).
  rewrite (bind_lift_o _ _ _ _ (reslice_ok s i (s_len s) ltac:(lia) ltac:(lia))).
  set (r1 := mkSlice _ _ (s_len s - i) _).
  assert (Ws2 : wf_slice m s2) by (apply wf_prefix; auto; lia).
  assert (Wd1 : wf_slice m d1) by (apply wf_reslice; auto; simpl; lia).
  assert (Wr1 : wf_slice m r1) by (apply wf_reslice; auto; simpl; lia).
  destruct (copy_slice_ok m d1 r1 Wd1 Wr1) as (m1 & E1 & Sh1 & P1).
  rewrite (bind_lift_mem _ _ _ _ _ _ E1).
  rewrite (bind_lift_o _ _ _ _ (reslice_ok s2 i (s_len s2) ltac:(simpl; lia) ltac:(simpl; lia))).
  set (d2 := mkSlice _ _ _ _).
  assert (Wd2 : wf_slice m d2) by (apply wf_reslice; auto; simpl; lia).
  destruct (copy_slice_ok m1 d2 x (wf_shape _ _ _ Sh1 Wd2) (wf_shape _ _ _ Sh1 Hx)) as (m2 & E2 & Sh2 & P2).
  rewrite (bind_lift_mem _ _ _ _ _ _ E2).
  pose proof (mshape_trans _ _ _ Sh1 Sh2) as Sh.
  exists m2, (contents m1 x). split; [reflexivity|].
  split; [apply (wf_shape _ _ _ Sh); auto|]. split; [auto|].
  assert (Wx1 : wf_slice m1 x) by apply (wf_shape _ _ _ Sh1 Hx).
  pose proof (zlen_contents m s Hs) as Hz. pose proof (zlen_contents m1 x Wx1) as Hzx.
  split; [auto|]. split; [|split].
  - apply zlist_eq. intros k Hk. rewrite <- Hz, zget_ins, Hzx by lia.
    rewrite zget_contents_peek by (apply (wf_shape _ _ _ Sh); auto).
    rewrite !zget_contents_peek by auto.
    subst d1 r1 d2 s2. simpl in *.
    destruct (Z.ltb_spec k (s_len s + s_len x)).
    2:{ case_all; try lia; auto. }
    rewrite P2 by lia. rewrite Nat.eqb_refl.
    case_all; try lia; try (f_equal; lia); rewrite P1 by lia; rewrite Nat.eqb_refl; case_all; try lia; f_equal; lia.
  - intros k Hk. cbv zeta. rewrite zget_contents_peek by auto.
    rewrite P1 by lia. subst d1 r1 d2 s2. simpl in *.
    case_all; try lia; auto; f_equal; lia.
  - apply same_except_peek; auto. intros b p Hp Ho.
    subst d1 r1 d2 s2. simpl in *. rewrite P2 by lia.
    destruct (Nat.eqb_spec b (s_arr s)); simpl.
    + case_all; try lia; rewrite P1 by lia; case_all; try lia; auto.
    + rewrite P1 by lia. case_all; try lia; auto; congruence.
Qed.

(** Insertion into new storage: x may be anything. *)
Lemma Insert_realloc zero i x m s :
  wf_slice m s -> wf_slice m x -> 0 <= i <= s_len s ->
  s_len s + s_len x <= max_int -> s_cap s < s_len s + s_len x ->
  exists m' s2, Vector_Insert zero i x (m, s) = (Ok tt, (m', s2)) /\ wf_slice m' s2 /\
    contents m' s2 = zsub (contents m s) 0 i ++ contents m x ++ zsub (contents m s) i (s_len s) /\
    s_arr s2 = length m /\ s_cap s2 = s_len s + s_len x /\ extends m m'.
Proof.
  intros Hs Hx Hi Hmax Hcap. pose proof Hs as (S1 & S2 & S3 & S4). pose proof Hx as (X1 & X2 & X3 & X4).
  unfold Vector_Insert. rewrite bind_get_hdr.
  rewrite wrap64_id by (unfold is_int, max_int in *; lia). cbv zeta.
  destruct (Z.leb_spec (s_len s + s_len x) (s_cap s)); [lia|].
  destruct (fresh_make zero m (s_len s + s_len x) (s_len s + s_len x)) as (s2 & m0 & E & (X & W & _) & C & L & Cp & A); [lia|].
  rewrite (bind_lift_mem _ _ _ _ _ _ E).
  unfold reslice_to, reslice_from. pose proof W as (W1 & W2 & W3 & W4).
  rewrite (bind_lift_o _ _ _ _ (reslice_prefix s i ltac:(lia))). set (r1 := mkSlice _ _ _ _).
  pose proof (extends_wf _ _ _ X Hs) as Hs0. pose proof (extends_wf _ _ _ X Hx) as Hx0.
  assert (Wr1 : wf_slice m0 r1) by (apply wf_prefix; auto; lia).
  destruct (copy_slice_ok m0 s2 r1 W Wr1) as (m1 & E1 & Sh1 & P1). rewrite (bind_lift_mem _ _ _ _ _ _ E1).
  rewrite (bind_lift_o _ _ _ _ (reslice_ok s2 i (s_len s2) ltac:(lia) ltac:(lia))). set (d2 := mkSlice _ _ _ _).
  assert (Wd2 : wf_slice m0 d2) by (apply wf_reslice; auto; lia).
  destruct (copy_slice_ok m1 d2 x (wf_shape _ _ _ Sh1 Wd2) (wf_shape _ _ _ Sh1 Hx0)) as (m2 & E2 & Sh2 & P2).
  rewrite (bind_lift_mem _ _ _ _ _ _ E2).
  rewrite wrap64_id by (unfold is_int, max_int in *; lia).
  rewrite (bind_lift_o _ _ _ _ (reslice_ok s2 (i + s_len x) (s_len s2) ltac:(lia) ltac:(lia))). set (d3 := mkSlice _ _ _ _).
  rewrite (bind_lift_o _ _ _ _ (reslice_ok s i (s_len s) ltac:(lia) ltac:(lia))). set (r3 := mkSlice _ _ (s_len s - i) _).
  pose proof (mshape_trans _ _ _ Sh1 Sh2) as Sh12.
  assert (Wd3 : wf_slice m0 d3) by (apply wf_reslice; auto; lia).
  assert (Wr3 : wf_slice m0 r3) by (apply wf_reslice; auto; lia).
  destruct (copy_slice_ok m2 d3 r3 (wf_shape _ _ _ Sh12 Wd3) (wf_shape _ _ _ Sh12 Wr3)) as (m3 & E3 & Sh3 & P3).
  rewrite (bind_lift_mem _ _ _ _ _ _ E3).
  pose proof (mshape_trans _ _ _ Sh12 Sh3) as Sh.
  exists m3, s2. split; [reflexivity|]. split; [apply (wf_shape _ _ _ Sh); auto|].
  assert (Ns : s_arr s <> s_arr s2) by lia. assert (Nx : s_arr x <> s_arr s2) by lia.
  split; [|split; [auto|split; [auto|]]].
  - pose proof (zlen_contents m s Hs) as Hz. pose proof (zlen_contents m x Hx) as Hzx.
    apply zlist_eq. intros k Hk. rewrite <- Hz, zget_ins, Hzx by lia.
    rewrite zget_contents_peek by (apply (wf_shape _ _ _ Sh); auto).
    rewrite !zget_contents_peek by auto.
    rewrite <- !(extends_peek m m0 X) by auto.
    subst r1 d2 d3 r3. simpl in *. rewrite L.
    destruct (Z.ltb_spec k (s_len s + s_len x)).
    2:{ case_all; try lia; auto. }
    assert (Ks : forall p, 0 <= p -> peek m2 (s_arr s) p = peek m0 (s_arr s) p).
    { intros p Hp. rewrite P2 by lia. rewrite (proj2 (Nat.eqb_neq (s_arr s) (s_arr s2)) Ns). cbn [andb].
      rewrite P1 by lia. now rewrite (proj2 (Nat.eqb_neq (s_arr s) (s_arr s2)) Ns). }
    assert (Kx : forall p, 0 <= p -> peek m1 (s_arr x) p = peek m0 (s_arr x) p).
    { intros p Hp. rewrite P1 by lia. now rewrite (proj2 (Nat.eqb_neq (s_arr x) (s_arr s2)) Nx). }
    rewrite P3 by lia. rewrite Nat.eqb_refl. rewrite L. cbn [andb].
    destruct (Z.leb_spec (s_off s2 + (i + s_len x)) (s_off s2 + k)).
    + rewrite Ks by lia. case_all; try lia; f_equal; lia.
    + cbn [andb]. rewrite P2 by lia. rewrite Nat.eqb_refl. cbn [andb].
      destruct (Z.leb_spec (s_off s2 + i) (s_off s2 + k)).
      * rewrite Kx by lia. case_all; try lia; f_equal; lia.
      * cbn [andb]. rewrite P1 by lia. rewrite Nat.eqb_refl. case_all; try lia; f_equal; lia.
  - eapply extends_shape; [exact X|exact Sh|]. intros a p Ha Hp. subst r1 d2 d3 r3. simpl in *.
    assert (Na : (a =? s_arr s2)%nat = false) by (apply Nat.eqb_neq; lia).
    rewrite P3, Na by lia. cbn [andb]. rewrite P2, Na by lia. cbn [andb]. rewrite P1, Na by lia. reflexivity.
Qed.

Lemma Insert_panic zero i x m s :
  wf_slice m s -> wf_slice m x -> is_int i -> ~ (0 <= i <= s_len s) -> s_len s + s_len x <= max_int ->
  exists m', Vector_Insert zero i x (m, s) = (Panic, (m', s)) /\ extends m m'.
Proof.
  intros Hs Hx Hint Hi Hmax. pose proof Hs as (S1 & S2 & S3 & S4). pose proof Hx as (X1 & X2 & X3 & X4).
  unfold Vector_Insert. rewrite bind_get_hdr.
  rewrite (wrap64_id (s_len s + s_len x)) by (unfold is_int, max_int in *; lia). cbv zeta. unfold reslice_to, reslice_from.
  assert (Hw : ~ (0 <= wrap64 (i + s_len x) <= s_len s + s_len x) \/ i < 0).
  { destruct (Z_lt_dec i 0); auto. left. destruct (Z_le_dec (i + s_len x) max_int).
    - rewrite wrap64_id; unfold is_int, max_int in *; lia.
    - pose proof (wrap64_over i (s_len x) Hint ltac:(unfold is_int, max_int in *; lia) ltac:(lia)). lia. }
  destruct (Z.leb_spec (s_len s + s_len x) (s_cap s)) as [L|L].
  - rewrite (bind_lift_o _ _ _ _ (reslice_prefix s (s_len s + s_len x) ltac:(lia))).
    exists m. split; [|apply extends_refl].
    destruct (reslice (mkSlice (s_arr s) (s_off s) (s_len s + s_len x) (s_cap s)) (wrap64 (i + s_len x)) _) eqn:E.
    + unfold reslice in E. simpl in E. destruct Hw as [Hw|Hw].
      * destruct (Z.leb_spec 0 (wrap64 (i + s_len x))), (Z.leb_spec (wrap64 (i + s_len x)) (s_len s + s_len x)); simpl in E; try discriminate; lia.
      * rewrite (bind_lift_o _ _ _ _ eq_refl). apply bind_lift_o_panic. apply reslice_panic. lia.
    + reflexivity.
    + unfold reslice in E. destruct (_ && _) in E; discriminate.
  - destruct (fresh_make zero m (s_len s + s_len x) (s_len s + s_len x)) as (s2 & m0 & E & (X & W & _) & C & Ln & Cp & A); [lia|].
    rewrite (bind_lift_mem _ _ _ _ _ _ E). pose proof W as (W1 & W2 & W3 & W4).
    destruct (Z_le_dec 0 i) as [P|P]; [|exists m0; split; auto; apply bind_lift_o_panic, reslice_panic; lia].
    destruct (Z_le_dec i (s_cap s)) as [Q|Q]; [|exists m0; split; auto; apply bind_lift_o_panic, reslice_panic; lia].
    rewrite (bind_lift_o _ _ _ _ (reslice_prefix s i ltac:(lia))). set (r1 := mkSlice _ _ _ _).
    pose proof (extends_wf _ _ _ X Hs) as Hs0. pose proof (extends_wf _ _ _ X Hx) as Hx0.
    assert (Wr1 : wf_slice m0 r1) by (apply wf_prefix; auto; lia).
    destruct (copy_slice_ok m0 s2 r1 W Wr1) as (m1 & E1 & Sh1 & P1). rewrite (bind_lift_mem _ _ _ _ _ _ E1).
    destruct (Z_le_dec i (s_len s2)) as [Q2|Q2].
    2:{ exists m1. split; [apply bind_lift_o_panic, reslice_panic; lia|].
        eapply extends_shape; [exact X|exact Sh1|]. intros a p Ha Hp. rewrite P1 by auto.
        rewrite (proj2 (Nat.eqb_neq a (s_arr s2))) by lia. reflexivity. }
    rewrite (bind_lift_o _ _ _ _ (reslice_ok s2 i (s_len s2) ltac:(lia) ltac:(lia))). set (d2 := mkSlice _ _ _ _).
    assert (Wd2 : wf_slice m0 d2) by (apply wf_reslice; auto; lia).
    destruct (copy_slice_ok m1 d2 x (wf_shape _ _ _ Sh1 Wd2) (wf_shape _ _ _ Sh1 Hx0)) as (m2 & E2 & Sh2 & P2).
    rewrite (bind_lift_mem _ _ _ _ _ _ E2).
    exists m2. split; [apply bind_lift_o_panic, reslice_panic; lia|].
    pose proof (mshape_trans _ _ _ Sh1 Sh2) as Sh12.
    eapply extends_shape; [exact X|exact Sh12|]. intros a p Ha Hp. subst d2. simpl in *.
    assert (Na : (a =? s_arr s2)%nat = false) by (apply Nat.eqb_neq; lia).
    rewrite P2, Na by lia. cbn [andb]. rewrite P1, Na by lia. reflexivity.
Qed.
(** *** Removal *)
Lemma wf_relen m s n : wf_slice m s -> 0 <= n <= s_cap s -> wf_slice m (mkSlice (s_arr s) (s_off s) n (s_cap s)).
Proof. intros (H1 & H2 & H3 & H4) H. unfold wf_slice in *. simpl. unfold arr_of in *. simpl. auto. Qed.

(** The common tail of the removing operations: *v = r; FillZero(oldV[len(r):]). *)
Lemma finish_shrink zero m m1 s n l' :
  wf_slice m s -> 0 <= n <= s_len s ->
  let r := mkSlice (s_arr s) (s_off s) n (s_cap s) in
  wf_slice m1 r -> contents m1 r = l' ->
  same_except m m1 (s_arr s) (s_off s) (s_off s + s_len s) ->
  exists m', on_slice (mkSlice (s_arr s) (s_off s + n) (s_len s - n) (s_cap s - n)) (FillZero zero) m1 = (Ok tt, m') /\
    shrunk zero m m' s r l'.
Proof.
  intros Hs Hn r Hr Hc Hse. pose proof Hs as (S1 & S2 & S3 & S4). pose proof Hr as (R1 & R2 & R3 & R4). simpl in *.
  assert (Hs1 : wf_slice m1 s) by (destruct s; exact (wf_relen m1 r _ Hr S3)).
  set (t := mkSlice _ (s_off s + n) _ _).
  assert (Ht : wf_slice m1 t) by (apply (wf_reslice m1 s n (s_len s)); auto; lia).
  destruct (inplace m1 t (FillZero zero) tt _ Ht eq_refl) as (m' & E & W & C & F).
  { now rewrite repeat_length. }
  exists m'. split; [exact E|].
  assert (P : forall p, 0 <= p -> p < s_off s + n \/ s_off s + s_len s <= p -> peek m' (s_arr s) p = peek m1 (s_arr s) p).
  { intros p Hp Ho. destruct F as (_ & F & _). unfold peek. symmetry. apply F; simpl; lia. }
  pose proof W as (W1 & W2 & W3 & W4). pose proof Hs1 as (K1 & K2 & K3 & K4).
  assert (Hs' : wf_slice m' s).
  { destruct F as (_ & _ & F). unfold wf_slice, arr_of in *. simpl in *. repeat split; try lia. }
  assert (Hr' : wf_slice m' r) by (apply wf_relen; auto; lia).
  assert (Cr : contents m' r = l').
  { rewrite <- Hc. apply contents_ext; auto. intros i Hi. simpl in *. apply P; lia. }
  unfold shrunk. split; [auto|]. split; [auto|]. split; [auto|]. split; [auto|]. split; [auto|]. split.
  - rewrite <- Cr. apply zlist_eq. intros i Hi. rewrite zget_app by lia. rewrite zlen_contents by auto.
    rewrite zget_contents_peek by auto. simpl s_len.
    destruct (Z.ltb_spec i n).
    + rewrite zget_contents_peek by auto. simpl. destruct (Z.leb_spec 0 i), (Z.ltb_spec i (s_len s)), (Z.ltb_spec i n); auto; lia.
    + rewrite zget_repeat. destruct (Z.leb_spec 0 i), (Z.ltb_spec i (s_len s)), (Z.leb_spec 0 (i - n)), (Z.ltb_spec (i - n) (Z.of_nat (Z.to_nat (s_len s - n)))); simpl; auto; try lia.
      assert (Q : zget (contents m' t) (i - n) = Some zero).
      { rewrite C, zget_repeat. pose proof (len_contents m1 t Ht). simpl in *.
        destruct (Z.leb_spec 0 (i - n)), (Z.ltb_spec (i - n) (Z.of_nat (length (contents m1 t)))); auto; lia. }
      rewrite zget_contents_peek in Q by auto. simpl in Q.
      destruct (Z.leb_spec 0 (i - n)), (Z.ltb_spec (i - n) (s_len s - n)); simpl in Q; try discriminate.
      rewrite <- Q. f_equal. lia.
  - eapply same_except_trans; [exact Hse|]. eapply same_except_weaken; [exact F| |]; simpl; lia.
Qed.

Lemma RemoveRange_ok zero grow i j m s :
  wf_slice m s -> 0 <= i <= j -> j <= s_len s ->
  exists m' s', Vector_RemoveRange zero grow i j (m, s) = (Ok tt, (m', s')) /\
    shrunk zero m m' s s' (zsub (contents m s) 0 i ++ zsub (contents m s) j (s_len s)).
Proof.
  intros Hs Hi Hj. pose proof Hs as (S1 & S2 & S3 & S4).
  unfold Vector_RemoveRange. rewrite bind_get_hdr. unfold reslice_to, reslice_from.
  rewrite (bind_lift_o _ _ _ _ (reslice_prefix s i ltac:(lia))). set (p := mkSlice _ _ i _).
  rewrite (bind_lift_o _ _ _ _ (reslice_ok s j (s_len s) ltac:(lia) ltac:(lia))). set (q := mkSlice _ _ _ _).
  assert (Hp : wf_slice m p) by (apply wf_prefix; auto; lia).
  assert (Cq : contents m q = zsub (contents m s) j (s_len s)) by (apply contents_reslice; auto; lia).
  assert (Cp : contents m p = zsub (contents m s) 0 i) by (apply contents_prefix; auto; lia).
  assert (Zq : zlen (contents m q) = s_len s - j) by (rewrite Cq, zlen_zsub; rewrite ?zlen_contents; auto; lia).
  destruct (append_list_ok zero grow p (contents m q) m Hp) as (s' & m1 & E & W & C & L & F).
  rewrite (bind_lift_mem (append_slice zero grow p q) _ _ _ s' m1 E). rewrite bind_set_hdr.
  simpl in F. rewrite Zq in *. destruct (Z.leb_spec (i + (s_len s - j)) (s_cap s)); [|lia].
  destruct F as (F1 & F2 & F3 & F4).
  assert (Es : s' = mkSlice (s_arr s) (s_off s) (i + (s_len s - j)) (s_cap s)).
  { destruct s'; simpl in *; congruence. }
  subst s'. simpl s_len.
  rewrite (bind_lift_o _ _ _ _ (reslice_ok s (i + (s_len s - j)) (s_len s) ltac:(lia) ltac:(lia))).
  destruct (finish_shrink zero m m1 s (i + (s_len s - j)) (zsub (contents m s) 0 i ++ zsub (contents m s) j (s_len s)) Hs ltac:(lia) W) as (m' & E' & Sh).
  - now rewrite C, Cp, Cq.
  - rewrite F4. apply (same_except_write_at m p i (contents m q)); auto; simpl; unfold arr_of in *; simpl; try lia.
  - eexists _, _. split; [apply lift_mem_ok; exact E'|exact Sh].
Qed.

(** Invalid ranges. *)
Lemma RemoveRange_panic zero grow i j m s :
  wf_slice m s -> ~ (0 <= i <= j /\ j <= s_len s) ->
  exists c', Vector_RemoveRange zero grow i j (m, s) = (Panic, c') /\
    if (0 <=? j) && (j <=? s_len s) && (j <? i) && (i <=? s_cap s)
    then wf_slice (fst c') (snd c') /\ s_len (snd c') = i + (s_len s - j) /\
         c_contents c' = zsub (cap_contents m s) 0 i ++ zsub (contents m s) j (s_len s)
    else c' = (m, s).
Proof.
  intros Hs Hv. pose proof Hs as (S1 & S2 & S3 & S4).
  unfold Vector_RemoveRange. rewrite bind_get_hdr. unfold reslice_to, reslice_from.
  destruct (Z_le_dec 0 i) as [P|P].
  2:{ exists (m, s). split; [apply bind_lift_o_panic, reslice_panic; lia|].
      destruct (Z.leb_spec 0 j), (Z.leb_spec j (s_len s)), (Z.ltb_spec j i); simpl; auto; lia. }
  destruct (Z_le_dec i (s_cap s)) as [Q|Q].
  2:{ exists (m, s). split; [apply bind_lift_o_panic, reslice_panic; lia|].
      destruct (Z.leb_spec i (s_cap s)); [lia|]. now rewrite andb_false_r. }
  rewrite (bind_lift_o _ _ _ _ (reslice_prefix s i ltac:(lia))). set (p := mkSlice _ _ i _).
  assert (Hj : 0 <= j <= s_len s \/ ~ 0 <= j <= s_len s) by lia. destruct Hj as [Hj|Hj].
  2:{ exists (m, s). split; [apply bind_lift_o_panic, reslice_panic; lia|].
      destruct (Z.leb_spec 0 j), (Z.leb_spec j (s_len s)); simpl; auto; lia. }
  rewrite (bind_lift_o _ _ _ _ (reslice_ok s j (s_len s) ltac:(lia) ltac:(lia))). set (q := mkSlice _ _ _ _).
  assert (Hp : wf_slice m p) by (apply wf_prefix; auto; lia).
  assert (Cq : contents m q = zsub (contents m s) j (s_len s)) by (apply contents_reslice; auto; lia).
  assert (Zq : zlen (contents m q) = s_len s - j) by (rewrite Cq, zlen_zsub; rewrite ?zlen_contents; auto; lia).
  destruct (append_list_ok zero grow p (contents m q) m Hp) as (s' & m1 & E & W & C & L & _).
  rewrite (bind_lift_mem (append_slice zero grow p q) _ _ _ s' m1 E). rewrite bind_set_hdr.
  rewrite Zq in L. simpl in L.
  exists (m1, s'). split.
  - apply bind_lift_o_panic, reslice_panic. lia.
  - destruct (Z.leb_spec 0 j), (Z.leb_spec j (s_len s)), (Z.ltb_spec j i), (Z.leb_spec i (s_cap s)); try lia.
    simpl. split; [auto|]. split; [auto|]. unfold c_contents. simpl. rewrite C, Cq. f_equal.
    unfold contents, cap_contents, arr_of. simpl. apply zlist_eq. intros k Hk.
    rewrite !zget_zsub by lia. unfold arr_of. destruct (Z.ltb_spec k (s_off s + i - s_off s)), (Z.ltb_spec k (i - 0)), (Z.ltb_spec (0 + k) (s_off s + s_cap s - s_off s)); try lia; auto.
Qed.

Lemma VRemoveIf_ok zero {St} (cond : St -> T -> bool * St) st m s :
  wf_slice m s ->
  let p := reject_st cond st (contents m s) in
  exists m' s', Vector_RemoveIf zero cond st (m, s) = (Ok (snd p), (m', s')) /\ shrunk zero m m' s s' (fst p).
Proof.
  intros Hs p. pose proof Hs as (S1 & S2 & S3 & S4). unfold Vector_RemoveIf. rewrite bind_get_hdr.
  destruct (RemoveIf_ok cond st m s Hs) as (r & m1 & E & W & C & A1 & A2 & A3 & F). fold p in E, C, F.
  rewrite (bind_lift_mem _ _ _ _ _ _ E). cbn [fst snd]. rewrite bind_set_hdr. unfold reslice_from.
  pose proof (reject_st_length cond (contents m s) st) as Hk. fold p in Hk. pose proof (zlen_contents m s Hs) as Z1.
  pose proof (zlen_contents m1 r W) as Z2. rewrite C in Z2.
  assert (Ln : 0 <= s_len r <= s_len s) by (unfold zlen in *; lia).
  rewrite (bind_lift_o _ _ _ _ (reslice_ok s (s_len r) (s_len s) ltac:(lia) ltac:(lia))).
  assert (Er : r = mkSlice (s_arr s) (s_off s) (s_len r) (s_cap s)) by (destruct r; simpl in *; congruence).
  rewrite Er in W, C.
  destruct (finish_shrink zero m m1 s (s_len r) (fst p) Hs Ln W C) as (m' & E' & Sh).
  { eapply same_except_weaken; [exact F|lia|lia]. }
  rewrite (bind_lift_mem _ _ _ _ _ _ E').
  exists m', r. split; [reflexivity|]. now rewrite Er.
Qed.

Lemma Clear_ok zero m s : wf_slice m s ->
  exists m' s', Vector_Clear zero (m, s) = (Ok tt, (m', s')) /\ shrunk zero m m' s s' [].
Proof.
  intros Hs. pose proof Hs as (S1 & S2 & S3 & S4). unfold Vector_Clear. rewrite bind_get_hdr.
  assert (W : wf_slice m (mkSlice (s_arr s) (s_off s) 0 (s_cap s))) by (apply wf_prefix; auto; lia).
  destruct (finish_shrink zero m m s 0 [] Hs ltac:(lia) W) as (m' & E & Sh).
  - apply contents_empty; auto.
  - apply same_except_refl.
  - rewrite Z.add_0_r, !Z.sub_0_r in E. destruct s as [sa so sl sc]; simpl in *.
    rewrite (bind_lift_mem _ _ _ _ _ _ E).
    rewrite (bind_lift_o _ _ _ _ (reslice_prefix (mkSlice sa so sl sc) 0 ltac:(simpl; lia))).
    eexists _, _. split; [reflexivity|exact Sh].
Qed.

Lemma PopBack_ok zero m s (x : T) l' : wf_slice m s -> contents m s = l' ++ [x] ->
  exists m' s', Vector_PopBack zero (m, s) = (Ok x, (m', s')) /\ shrunk zero m m' s s' l'.
Proof.
  intros Hs Hc. pose proof Hs as (S1 & S2 & S3 & S4). unfold Vector_PopBack. rewrite bind_get_hdr.
  pose proof (zlen_contents m s Hs) as Z1. rewrite Hc, zlen_snoc in Z1. pose proof (zlen_nonneg l').
  assert (G : zget (contents m s) (s_len s - 1) = Some x).
  { rewrite Hc. replace (s_len s - 1) with (zlen l') by lia. apply (zget_mid l' x []). }
  rewrite (bind_lift_mem _ _ _ _ _ _ (sload_ok m s _ _ Hs G)).
  assert (W : wf_slice m (mkSlice (s_arr s) (s_off s) (s_len s - 1) (s_cap s))) by (apply wf_prefix; auto; lia).
  destruct (finish_shrink zero m m s (s_len s - 1) l' Hs ltac:(lia) W) as (m' & E & Sh).
  - rewrite contents_prefix by (auto; lia). rewrite Hc. replace (s_len s - 1) with (zlen l') by lia.
    unfold zsub. rewrite Z.sub_0_r. simpl skipn. rewrite zlen_to_nat. rewrite firstn_app, Nat.sub_diag, firstn_all. simpl. apply app_nil_r.
  - apply same_except_refl.
  - assert (E2 : sstore s (s_len s - 1) zero m = (Ok tt, m')).
    { rewrite sstore_ok by (auto; lia). f_equal.
      unfold on_slice, FillZero in E. inversion E as [E1]. clear E. rewrite Hc.
      replace (zupd (l' ++ [x]) (s_len s - 1) zero) with (l' ++ [zero]) by (symmetry; apply zupd_app_eq; lia).
      set (t := mkSlice _ _ _ _). assert (Ht : wf_slice m t) by (apply (wf_reslice m s (s_len s - 1) (s_len s)); auto; lia).
      pose proof (len_contents m t Ht) as Lt. simpl in Lt. replace (length (contents m t)) with 1%nat by lia.
      unfold write_at. simpl. f_equal. unfold arr_of. simpl.
      apply zlist_eq. intros k Hk. unfold arr_of in *.
      rewrite !zget_zwrite; rewrite ?zlen_snoc; change (zlen (repeat zero 1)) with 1; change (zlen [zero]) with 1; try lia.
      destruct (Z.leb_spec (s_off s + 0) k), (Z.ltb_spec k (s_off s + 0 + (zlen l' + 1))); simpl;
      destruct (Z.leb_spec (s_off s + (s_len s - 1) + 0) k), (Z.ltb_spec k (s_off s + (s_len s - 1) + 0 + 1)); simpl; auto; try lia.
      - rewrite zget_app_r by lia. f_equal. lia.
      - rewrite zget_app_l by lia.
        assert (Q : zget (contents m s) (k - (s_off s + 0)) = zget l' (k - (s_off s + 0))) by (rewrite Hc; apply zget_app_l; lia).
        rewrite <- Q. rewrite zget_contents by (auto; lia). destruct (Z.ltb_spec (k - (s_off s + 0)) (s_len s)); [|lia].
        unfold arr_of. f_equal. lia. }
    rewrite (bind_lift_mem _ _ _ _ _ _ E2).
    rewrite (bind_lift_o _ _ _ _ (reslice_prefix s (s_len s - 1) ltac:(lia))).
    rewrite bind_set_hdr. eexists _, _. split; [reflexivity|exact Sh].
Qed.
Lemma PopBack_panic zero m s : wf_slice m s -> contents m s = [] -> Vector_PopBack zero (m, s) = (Panic, (m, s)).
Proof.
  intros Hs Hc. unfold Vector_PopBack. rewrite bind_get_hdr. unfold bind at 1. unfold lift_mem at 1. cbn [fst snd].
  rewrite sload_panic; auto. pose proof (zlen_contents m s Hs) as Z1. rewrite Hc in *. rewrite zlen_nil in Z1. apply zget_lt0. lia.
Qed.
End Vec.
