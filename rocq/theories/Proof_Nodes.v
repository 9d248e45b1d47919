From Verif Require Import BaseLemmas Nodes.

Section N.
Context {N H : Type}.
Implicit Types (h : list N) (l : H).

Lemma pload_ok h l a n : nth_error h a = Some n -> pload (Some a) (h, l) = (Ok n, (h, l)).
Proof. intros E. unfold pload. cbn. now rewrite E. Qed.
Lemma pmod_ok h l a n f : nth_error h a = Some n -> pmod (Some a) f (h, l) = (Ok tt, (upd a (f n) h, l)).
Proof. intros E. unfold pmod. cbn. now rewrite E. Qed.
Lemma nth_upd h a b n : (a < length h)%nat -> nth_error (upd a n h) b = if Nat.eqb a b then Some n else nth_error h b.
Proof. intros L. destruct (Nat.eqb_spec a b); [subst; now apply nth_error_upd_eq|now apply nth_error_upd_ne]. Qed.
Lemma nth_app_old h n a x : nth_error h a = Some x -> nth_error (h ++ [n]) a = Some x.
Proof. intros E. rewrite nth_error_app1; auto. apply nth_error_Some. congruence. Qed.
Lemma nth_app_new h n : nth_error (h ++ [n]) (length h) = Some n.
Proof. rewrite nth_error_app2, Nat.sub_diag by lia. reflexivity. Qed.
Lemma nth_lt h a n : nth_error h a = Some n -> (a < length h)%nat.
Proof. intros E. apply nth_error_Some. congruence. Qed.

(** Distinct addresses in the heap are at most as many as its nodes. *)
Lemma nodup_fuel h ps : NoDup ps -> (forall a, In a ps -> (a < length h)%nat) -> (length ps < S (length h))%nat.
Proof.
  intros ND B. rewrite <- (seq_length (length h) 0). apply Nat.lt_succ_r.
  apply NoDup_incl_length; auto. intros a Ha. apply in_seq. specialize (B a Ha). lia.
Qed.
(** The nodes of the frame fr are there. *)
Definition keeps (fr : nat -> option N) h : Prop := forall a n, fr a = Some n -> nth_error h a = Some n.
Lemma keeps_refl h : keeps (nth_error h) h.
Proof. red; auto. Qed.
Lemma keeps_app fr h n : keeps fr h -> keeps fr (h ++ [n]).
Proof. intros K a x E. apply nth_app_old. auto. Qed.
Lemma keeps_upd fr h a n : keeps fr h -> fr a = None -> keeps fr (upd a n h).
Proof. intros K L b x E. rewrite nth_error_upd_ne; auto. congruence. Qed.
Lemma keeps_new fr h : keeps fr h -> fr (length h) = None.
Proof. intros K. destruct (fr (length h)) eqn:E; auto. apply K, nth_lt in E. lia. Qed.
End N.
