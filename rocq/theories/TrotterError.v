(** The error of a product of exponentials *)
From Coq Require Import Reals Lra Bool List Arith Lia Ring.
From Verif Require Import Scalar ScalarFacts RScal RealInst Tensor Spec TensorFacts ExpectedFacts OpSpec OpAlgebra TrotterExp OpExp TrotterSpec.
Import ListNotations.
Local Open Scope R_scope.
Add Ring Cring : (@k_ring CS).
Notation trm := (@term CS fk).
Notation ozero := (fun _ _ : list nat => mkC 0 0).

(** sum over the words of length k *)
Fixpoint sumw {A} (add : A -> A -> A) (k : nat) (g : list bool -> A) : A :=
  match k with O => g [] | S k => add (sumw add k (fun w => g (true :: w))) (sumw add k (fun w => g (false :: w))) end.
Notation csumw := (sumw Cadd).
Notation rsumw := (sumw Rplus).
Lemma csumw_ext k : forall f g, (forall w, length w = k -> f w = g w) -> csumw k f = csumw k g.
Proof.
  induction k as [|k IH]; intros f g H; cbn [sumw]; [apply H; reflexivity|]. rewrite (IH (fun w => f (true :: w)) (fun w => g (true :: w))), (IH (fun w => f (false :: w)) (fun w => g (false :: w))); [reflexivity| |]; intros w Hw; apply H; cbn; congruence.
Qed.
Lemma csumw_add k : forall f g, csumw k (fun w => Cadd (f w) (g w)) = Cadd (csumw k f) (csumw k g).
Proof. induction k as [|k IH]; intros f g; cbn [sumw]; [reflexivity|]. rewrite (IH (fun w => f (true :: w)) (fun w => g (true :: w))), (IH (fun w => f (false :: w)) (fun w => g (false :: w))). apply C_ext; cbn; ring. Qed.
Lemma csumw_sub k : forall f g, csumw k (fun w => Csub (f w) (g w)) = Csub (csumw k f) (csumw k g).
Proof. induction k as [|k IH]; intros f g; cbn [sumw]; [reflexivity|]. rewrite (IH (fun w => f (true :: w)) (fun w => g (true :: w))), (IH (fun w => f (false :: w)) (fun w => g (false :: w))). apply C_ext; cbn; ring. Qed.
Lemma csumw_mul k c : forall f, csumw k (fun w => Cmul c (f w)) = Cmul c (csumw k f).
Proof. induction k as [|k IH]; intros f; cbn [sumw]; [reflexivity|]. rewrite (IH (fun w => f (true :: w))), (IH (fun w => f (false :: w))). apply C_ext; cbn; ring. Qed.
Lemma csumw_zero k : csumw k (fun _ => mkC 0 0) = mkC 0 0.
Proof. induction k as [|k IH]; cbn [sumw]; [reflexivity|]. rewrite IH. apply C_ext; cbn; ring. Qed.
Lemma csumw_cfg k ds : forall (f : list bool -> list nat -> Cx), csumw k (fun w => ccfg ds (f w)) = ccfg ds (fun ks => csumw k (fun w => f w ks)).
Proof.
  induction k as [|k IH]; intros f; cbn [sumw]; [reflexivity|]. rewrite (IH (fun w => f (true :: w))), (IH (fun w => f (false :: w))). symmetry. apply (@sumcfg_add CS).
Qed.

Section Error.
Variable ds : list nat.
Variable X : bool -> cop.

Fixpoint op_word (w : list bool) : cop := match w with [] => @id_op CS | x :: w => omul ds (X x) (op_word w) end.
Definition osumw (k : nat) (f : list bool -> cop) : cop := fun is js => csumw k (fun w => f w is js).
Lemma omul_osumw k A f is js : omul ds A (osumw k f) is js = csumw k (fun w => omul ds A (f w) is js).
Proof.
  unfold op_mul, osumw. rewrite csumw_cfg. apply (@sumcfg_ext CS). intros ks _. symmetry. apply (csumw_mul k (A is ks)).
Qed.
Lemma nrm_osumw k : forall f, nrm ds (osumw k f) <= rsumw k (fun w => nrm ds (f w)).
Proof.
  induction k as [|k IH]; intros f; cbn [sumw]; [apply Rle_refl|]. eapply Rle_trans; [apply (nrm_add ds (osumw k (fun w => f (true :: w))) (osumw k (fun w => f (false :: w))))|].
  pose proof (IH (fun w => f (true :: w))). pose proof (IH (fun w => f (false :: w))). cbv beta in *. lra.
Qed.
Lemma rsumw_le k : forall f g, (forall w, length w = k -> f w <= g w) -> rsumw k f <= rsumw k g.
Proof.
  induction k as [|k IH]; intros f g H; cbn [sumw]; [apply H; reflexivity|].
  pose proof (IH (fun w => f (true :: w)) (fun w => g (true :: w)) ltac:(intros w Hw; apply H; cbn; congruence)). pose proof (IH (fun w => f (false :: w)) (fun w => g (false :: w)) ltac:(intros w Hw; apply H; cbn; congruence)). lra.
Qed.
Lemma rsumw_mul k c : forall f, rsumw k (fun w => c * f w) = c * rsumw k f.
Proof. induction k as [|k IH]; intros f; cbn [sumw]; [reflexivity|]. rewrite (IH (fun w => f (true :: w))), (IH (fun w => f (false :: w))). ring. Qed.

(** coefficients of the powers of t in a product of exponentials *)
Definition gen (p : R * bool) : cop := @oscl CS (mkC (fst p) 0) (X (snd p)).
Fixpoint pcoef (l : list (R * bool)) (k : nat) : cop :=
  match l with
  | [] => match k with O => @id_op CS | _ => ozero end
  | p :: l => @osum CS (S k) (fun n => omul ds (trm ds (gen p) n) (pcoef l (k - n)))
  end.
Fixpoint oprod (Es : list cop) : cop := match Es with [] => @id_op CS | E :: Es => omul ds E (oprod Es) end.
Definition poly (m : nat) (f : nat -> cop) (t : Cx) : cop := @osum CS (S m) (fun k => @oscl CS (@kpow CS t k) (f k)).

Lemma C1_kpow_le1 t k : C1 t <= 1 -> C1 (@kpow CS t k) <= 1.
Proof. intros H. eapply Rle_trans; [apply C1_kpow|]. rewrite <- (pow1 k). apply pow_incr. pose proof (C1_pos t). lra. Qed.
Lemma nrm_poly m f t : C1 t <= 1 -> nrm ds (poly m f t) <= rsm (S m) (fun k => nrm ds (f k)).
Proof.
  intros H. eapply Rle_trans; [apply nrm_sum|]. apply rsm_le. intros k Hk. eapply Rle_trans; [apply nrm_scl|]. pose proof (C1_kpow_le1 t k H). pose proof (nrm_pos ds (f k)). pose proof (C1_pos (@kpow CS t k)). nra.
Qed.
Lemma rsm_nonneg n (f : nat -> R) : (forall k, (k < n)%nat -> 0 <= f k) -> 0 <= rsm n f.
Proof. intros H. refine (Rle_trans _ _ _ (Req_le _ _ (eq_sym (@sum_0 RSC n))) _). apply rsm_le. exact H. Qed.

Lemma poly_mul m f g : exists C, 0 <= C /\ forall t, C1 t <= 1 ->
  nrm ds (@osub CS (omul ds (poly m f t) (poly m g t)) (poly m (fun k => @osum CS (S k) (fun n => omul ds (f n) (g (k - n)%nat))) t)) <= C * C1 t ^ S m.
Proof.
  set (C := rsm (S m) (fun j => rsm (S m) (fun k => nrm ds (f j) * nrm ds (g k)))).
  assert (HN : forall j k, 0 <= nrm ds (f j) * nrm ds (g k)) by (intros; apply Rmult_le_pos; apply nrm_pos).
  exists C. split; [apply rsm_nonneg; intros; apply rsm_nonneg; intros; apply HN|]. intros t Ht. pose proof (C1_pos t) as P0.
  set (h := fun j k => @oscl CS (@kpow CS t (j + k)) (omul ds (f j) (g k))).
  assert (S1 : oeqC ds (@osub CS (omul ds (poly m f t) (poly m g t)) (poly m (fun k => @osum CS (S k) (fun n => omul ds (f n) (g (k - n)%nat))) t))
     (@osum CS (S m) (fun j => @osum CS (S m) (fun k => if Nat.leb (j + k) m then ozero else h j k)))).
  { intros is js Hi Hj. unfold osub.
    assert (E1 : omul ds (poly m f t) (poly m g t) is js = csum (S m) (fun j => csum (S m) (fun k => h j k is js))).
    { unfold poly at 1. rewrite op_mul_sum_l. apply (@sum_ext CS). intros j Hjm. unfold poly. rewrite op_mul_sum_r. apply (@sum_ext CS). intros k Hk. rewrite op_mul_scl_l, op_mul_scl_r. unfold h, oscl. rewrite (@kpow_add CS). ring. }
    assert (E2 : poly m (fun k => @osum CS (S k) (fun n => omul ds (f n) (g (k - n)%nat))) t is js = csum (S m) (fun j => csum (S m) (fun k => if Nat.leb (j + k) m then h j k is js else mkC 0 0))).
    { refine (eq_trans _ (eq_sym (triangle (SC := CS) m (fun j k => h j k is js)))). unfold poly, osum. apply (@sum_ext CS). intros k Hk. unfold oscl at 1. rewrite (@sum_mul_l CS). apply (@sum_ext CS). intros j Hjk.
      unfold h, oscl. replace (j + (k - j))%nat with k by lia. reflexivity. }
    rewrite E1, E2. rewrite <- (@sum_sub CS). unfold osum. apply (@sum_ext CS). intros j Hjm. rewrite <- (@sum_sub CS). apply (@sum_ext CS). intros k Hk. destruct (Nat.leb (j + k) m); apply C_ext; cbn; ring. }
  rewrite (nrm_eq ds _ _ S1). unfold C. replace (rsm (S m) _ * C1 t ^ S m) with (rsm (S m) (fun j => rsm (S m) (fun k => nrm ds (f j) * nrm ds (g k) * C1 t ^ S m))).
  2:{ symmetry. etransitivity; [apply (@sum_mul_r RSC)|]. apply (@sum_ext RSC). intros j Hj. apply (@sum_mul_r RSC). }
  eapply Rle_trans; [apply nrm_sum|]. apply rsm_le. intros j Hj. eapply Rle_trans; [apply nrm_sum|]. apply rsm_le. intros k Hk. destruct (Nat.leb_spec (j + k) m) as [L|L].
  - assert (Z : nrm ds ozero <= 0) by (exact (nrm_sum ds 0 (fun _ => ozero))). pose proof (HN j k). pose proof (pow_le (C1 t) (S m) P0). assert (0 <= nrm ds (f j) * nrm ds (g k) * C1 t ^ S m) by (apply Rmult_le_pos; assumption). lra.
  - unfold h. eapply Rle_trans; [apply nrm_scl|]. rewrite (Rmult_comm (nrm ds (f j) * nrm ds (g k))). apply Rmult_le_compat; [apply C1_pos|apply nrm_pos| |apply nrm_mul].
    eapply Rle_trans; [apply C1_kpow|]. replace (j + k)%nat with (S m + (j + k - S m))%nat by lia. rewrite pow_add. pose proof (pow_le (C1 t) (S m) P0).
    assert (C1 t ^ (j + k - S m) <= 1) by (rewrite <- (pow1 (j + k - S m)); apply pow_incr; lra). nra.
Qed.

Definition exps (t : Cx) (l : list (R * bool)) (Es : list cop) : Prop := Forall2 (fun p E => is_op_exp ds (@oscl CS t (gen p)) E) l Es.

Lemma nrm_sub_sym A B : nrm ds (@osub CS A B) = nrm ds (@osub CS B A).
Proof. apply (@sumcfg_ext RSC). intros is _. apply (@sumcfg_ext RSC). intros js _. unfold osub, C1. cbn. rewrite (Rabs_minus_sym (Cre (A is js))), (Rabs_minus_sym (Cim (A is js))). reflexivity. Qed.
Lemma nrm_tri A B C : nrm ds (@osub CS A C) <= nrm ds (@osub CS A B) + nrm ds (@osub CS B C).
Proof.
  rewrite <- (nrm_eq ds (@oadd CS (@osub CS A B) (@osub CS B C))); [apply nrm_add|]. intros is js _ _. unfold oadd, osub. ring.
Qed.
Lemma nrm_le_sub A B : nrm ds A <= nrm ds (@osub CS A B) + nrm ds B.
Proof. rewrite <- (nrm_eq ds (@oadd CS (@osub CS A B) B)); [apply nrm_add|]. intros is js _ _. unfold oadd, osub. ring. Qed.
Lemma nrm_ozero : nrm ds ozero = 0.
Proof. apply Rle_antisym; [exact (nrm_sum ds 0 (fun _ => ozero))|apply nrm_pos]. Qed.

Lemma prod_poly m l : exists C, 0 <= C /\ forall t Es, C1 t <= 1 -> exps t l Es -> nrm ds (@osub CS (oprod Es) (poly m (pcoef l) t)) <= C * C1 t ^ S m.
Proof.
  induction l as [|p l (C2 & HC2 & H2)].
  - exists 0. split; [lra|]. intros t Es Ht HE. inversion HE; subst. cbn [oprod]. rewrite Rmult_0_l. rewrite (nrm_eq ds _ ozero); [rewrite nrm_ozero; lra|].
    intros is js _ _. unfold osub, poly, osum. rewrite (@sum_S_l CS). rewrite (@sum_zero CS m).
    + unfold oscl. cbn [kpow pcoef]. apply C_ext; cbn; ring.
    + intros i Hi. unfold oscl. cbn [pcoef]. apply C_ext; cbn; ring.
  - destruct (op_exp_tail ds (gen p) m) as (C1' & HC1 & H1). destruct (poly_mul m (trm ds (gen p)) (pcoef l)) as (C3 & HC3 & H3).
    set (e := rsm (S m) (fun k => nrm ds (trm ds (gen p) k))). set (r := rsm (S m) (fun k => nrm ds (pcoef l k))).
    assert (He : 0 <= e) by (apply rsm_nonneg; intros; apply nrm_pos). assert (Hr : 0 <= r) by (apply rsm_nonneg; intros; apply nrm_pos).
    exists (C1' * (C2 + r) + e * C2 + C3). split; [apply Rplus_le_le_0_compat; [apply Rplus_le_le_0_compat; apply Rmult_le_pos; lra|lra]|].
    intros t Es Ht HE. inversion HE as [|? E ? Es' HE1 HE2]; subst. cbn [oprod].
    specialize (H1 t E Ht HE1). specialize (H2 t Es' Ht HE2). specialize (H3 t Ht).
    fold (poly m (trm ds (gen p)) t) in H1. pose proof (nrm_poly m (trm ds (gen p)) t Ht) as Be. fold e in Be. pose proof (nrm_poly m (pcoef l) t Ht) as Br. fold r in Br.
    set (T := C1 t ^ S m) in *. assert (HT : 0 <= T <= 1). { unfold T. split; [apply pow_le; apply C1_pos|]. rewrite <- (pow1 (S m)). apply pow_incr. pose proof (C1_pos t). lra. }
    set (Pe := poly m (trm ds (gen p)) t) in *. set (Pr := poly m (pcoef l) t) in *.
    change (poly m (pcoef (p :: l)) t) with (poly m (fun k => @osum CS (S k) (fun n => omul ds (trm ds (gen p) n) (pcoef l (k - n)%nat))) t).
    eapply Rle_trans; [apply (nrm_tri _ (omul ds Pe Pr))|].
    assert (G : nrm ds (@osub CS (omul ds E (oprod Es')) (omul ds Pe Pr)) <= C1' * T * (C2 + r) + e * (C2 * T)).
    { rewrite (nrm_eq ds _ (@oadd CS (omul ds (@osub CS E Pe) (oprod Es')) (omul ds Pe (@osub CS (oprod Es') Pr)))).
      2:{ intros is js _ _. unfold osub, oadd, op_mul. rewrite <- (@sumcfg_sub CS), <- (@sumcfg_add CS). apply (@sumcfg_ext CS). intros ks _. ring. }
      eapply Rle_trans; [apply nrm_add|]. apply Rplus_le_compat; (eapply Rle_trans; [apply nrm_mul|]).
      - apply Rmult_le_compat; [apply nrm_pos|apply nrm_pos|exact H1|]. eapply Rle_trans; [apply (nrm_le_sub _ Pr)|]. nra.
      - apply Rmult_le_compat; [apply nrm_pos|apply nrm_pos|exact Be|exact H2]. }
    lra.
Qed.

(** the coefficients are sums over words *)
Definition wsum (a : nat -> R) (x : bool) (l : list (R * bool)) (w : list bool) : R :=
  fold_right (fun n s => a n * word_coeff l (skipn n w) + s) 0 (seq 0 (S (run x w))).
Lemma wsum_cons a x l y w : wsum a x l (y :: w) = a 0%nat * word_coeff l (y :: w) + (if Bool.eqb x y then wsum (fun n => a (S n)) x l w else 0).
Proof.
  unfold wsum. cbn [run]. destruct (Bool.eqb x y).
  - cbn [seq fold_right skipn]. f_equal. rewrite <- seq_shift.
    change (0%nat :: seq 1 (run x w)) with (seq 0 (S (run x w))).
    assert (G : forall q, fold_right (fun n s => a n * word_coeff l (skipn n (y :: w)) + s) 0 (map S q) = fold_right (fun n s => a (S n) * word_coeff l (skipn n w) + s) 0 q).
    { induction q as [|n q IH]; [reflexivity|]. cbn [map fold_right]. rewrite IH. reflexivity. }
    rewrite <- G. reflexivity.
  - cbn. ring.
Qed.
Definition rc (x : R) : Cx := mkC x 0.
Lemma wsum_words x l (a : nat -> R) : forall k is js, in_range ds is -> in_range ds js ->
  csumw k (fun w => Cmul (rc (wsum a x l w)) (op_word w is js)) =
  csum (S k) (fun n => omul ds (@oscl CS (rc (a n)) (opow ds (X x) n)) (osumw (k - n) (fun w => @oscl CS (rc (word_coeff l w)) (op_word w))) is js).
Proof.
  intros k. revert a. induction k as [|k IH]; intros a is js Hi Hj.
  - rewrite (@sum_1 CS). cbn [sumw]. unfold osumw. cbn [sumw Nat.sub]. rewrite op_mul_scl_l, op_mul_scl_r. cbn [op_pow]. rewrite (op_mul_id_l ds _ is js Hi Hj). unfold wsum, rc. cbn [run seq fold_right skipn]. apply C_ext; cbn; ring.
  - rewrite (@sum_S_l CS). cbn [Nat.sub].
    transitivity (Cadd (csumw (S k) (fun w => Cmul (rc (a 0%nat)) (Cmul (rc (word_coeff l w)) (op_word w is js)))) (csumw k (fun w => Cmul (rc (wsum (fun n => a (S n)) x l w)) (op_word (x :: w) is js)))).
    { cbn [sumw].
      transitivity (Cadd (csumw k (fun w => Cadd (Cmul (rc (a 0%nat)) (Cmul (rc (word_coeff l (true :: w))) (op_word (true :: w) is js))) (if Bool.eqb x true then Cmul (rc (wsum (fun n => a (S n)) x l w)) (op_word (x :: w) is js) else mkC 0 0)))
                         (csumw k (fun w => Cadd (Cmul (rc (a 0%nat)) (Cmul (rc (word_coeff l (false :: w))) (op_word (false :: w) is js))) (if Bool.eqb x false then Cmul (rc (wsum (fun n => a (S n)) x l w)) (op_word (x :: w) is js) else mkC 0 0)))).
      { f_equal; apply csumw_ext; intros w Hw; rewrite wsum_cons; destruct x; cbn [Bool.eqb op_word]; unfold rc; apply C_ext; cbn; ring. }
      rewrite !csumw_add. destruct x; cbn [Bool.eqb]; rewrite csumw_zero; apply C_ext; cbn; ring. }
    change (@kadd CS) with Cadd. f_equal.
    + rewrite csumw_mul. rewrite op_mul_scl_l. cbn [op_pow]. rewrite (op_mul_id_l ds _ is js Hi Hj). reflexivity.
    + transitivity (omul ds (X x) (osumw k (fun w => @oscl CS (rc (wsum (fun n => a (S n)) x l w)) (op_word w))) is js).
      { rewrite omul_osumw. apply csumw_ext. intros w _. rewrite op_mul_scl_r. reflexivity. }
      set (Q := @osum CS (S k) (fun n => omul ds (@oscl CS (rc (a (S n))) (opow ds (X x) n)) (osumw (k - n) (fun w => @oscl CS (rc (word_coeff l w)) (op_word w))))).
      transitivity (omul ds (X x) Q is js).
      { refine (@op_mul_eq CS ds _ _ _ _ (oeq_refl ds _) _ is js Hi Hj). intros is' js' Hi' Hj'. exact (IH (fun n => a (S n)) is' js' Hi' Hj'). }
      unfold Q. rewrite op_mul_sum_r. apply (@sum_ext CS). intros n Hn. cbn [op_pow]. rewrite <- op_mul_assoc.
      refine (@op_mul_eq CS ds _ _ _ _ _ (oeq_refl ds _) is js Hi Hj). intros is' js' Hi' Hj'. rewrite op_mul_scl_r. reflexivity.
Qed.
Lemma kpow_rc c n : @kpow CS (rc c) n = rc (c ^ n).
Proof. induction n as [|n IH]; [reflexivity|]. cbn [kpow pow]. rewrite IH. unfold rc. apply C_ext; cbn; ring. Qed.
Lemma pcoef_words l : forall k, oeqC ds (pcoef l k) (osumw k (fun w => @oscl CS (rc (word_coeff l w)) (op_word w))).
Proof.
  induction l as [|[c x] l IH]; intros k is js Hi Hj.
  - unfold osumw. cbn [word_coeff pcoef]. destruct k as [|k]; [cbn [sumw op_word]; unfold oscl, rc; apply C_ext; cbn; ring|].
    symmetry. transitivity (csumw (S k) (fun _ => mkC 0 0)); [|apply csumw_zero]. apply csumw_ext. intros [|y w] Hw; [discriminate|]. unfold oscl, rc. apply C_ext; cbn; ring.
  - transitivity (csumw k (fun w => Cmul (rc (wsum (fun n => c ^ n / INR (fact n)) x l w)) (op_word w is js))); [|reflexivity].
    rewrite wsum_words by assumption. cbn [pcoef]. unfold osum. apply (@sum_ext CS). intros n Hn. refine (@op_mul_eq CS ds _ _ _ _ _ (IH _) is js Hi Hj).
    intros is' js' Hi' Hj'. unfold term, gen. cbn [fst snd]. unfold oscl at 1. rewrite (@op_pow_scl CS ds (mkC c 0) (X x) n is' js' Hi' Hj'). fold (rc c). rewrite kpow_rc. unfold oscl, fk, rc, Rdiv. apply C_ext; cbn -[pow fact]; ring.
Qed.

(** the exponential of the sum *)
Lemma pow_words k : oeqC ds (opow ds (@oadd CS (X true) (X false)) k) (osumw k op_word).
Proof.
  induction k as [|k IH]; intros is js Hi Hj; [reflexivity|]. cbn [op_pow].
  rewrite (op_mul_eq ds _ _ _ _ (oeq_refl ds _) IH is js Hi Hj). rewrite op_mul_add_l. rewrite !omul_osumw. reflexivity.
Qed.

(** the error of a product of exponentials: [m] and [eps] as in [accurate] *)
Theorem product_error l m eps : accurate l m eps -> exists C B, 0 <= C /\ 0 <= B /\ forall t Es F, C1 t <= 1 -> exps t l Es ->
  is_op_exp ds (@oscl CS t (@oadd CS (X true) (X false))) F -> nrm ds (@osub CS (oprod Es) F) <= C * C1 t ^ S m + eps * B.
Proof.
  intros HA. destruct (prod_poly m l) as (C & HC & H1). destruct (op_exp_tail ds (@oadd CS (X true) (X false)) m) as (C' & HC' & H2).
  set (B := rsm (S m) (fun k => rsumw k (fun w => nrm ds (op_word w)))).
  exists (C + C'), B. split; [lra|]. split.
  { apply rsm_nonneg. intros k Hk. refine (Rle_trans _ (rsumw k (fun w => 0 * nrm ds (op_word w))) _ _ _).
    - rewrite rsumw_mul. lra.
    - apply rsumw_le. intros w _. pose proof (nrm_pos ds (op_word w)). lra. }
  intros t Es F Ht HE HF. specialize (H1 t Es Ht HE). specialize (H2 t F Ht HF).
  fold (poly m (trm ds (@oadd CS (X true) (X false))) t) in H2.
  eapply Rle_trans; [apply (nrm_tri _ (poly m (pcoef l) t))|]. eapply Rle_trans; [apply Rplus_le_compat_l; apply (nrm_tri _ (poly m (trm ds (@oadd CS (X true) (X false))) t))|].
  rewrite (nrm_sub_sym _ F).
  assert (G : nrm ds (@osub CS (poly m (pcoef l) t) (poly m (trm ds (@oadd CS (X true) (X false))) t)) <= eps * B); [|lra].
  rewrite (nrm_eq ds _ (poly m (fun k => osumw k (fun w => @oscl CS (rc (word_coeff l w - / INR (fact k))) (op_word w))) t)).
  - eapply Rle_trans; [apply nrm_poly; exact Ht|]. unfold B. replace (eps * rsm _ _) with (rsm (S m) (fun k => eps * rsumw k (fun w => nrm ds (op_word w)))) by (symmetry; exact (@sum_mul_l RSC (S m) eps _)).
    apply rsm_le. intros k Hk. eapply Rle_trans; [apply nrm_osumw|]. rewrite <- rsumw_mul. apply rsumw_le. intros w Hw. eapply Rle_trans; [apply nrm_scl|]. unfold rc. rewrite C1_real.
    apply Rmult_le_compat_r; [apply nrm_pos|]. rewrite <- Hw. apply HA. lia.
  - intros is js Hi Hj. unfold osub, poly, osum. rewrite <- (@sum_sub CS). apply (@sum_ext CS). intros k Hk. unfold oscl at 1 2 3. rewrite (pcoef_words l k is js Hi Hj).
    unfold term. unfold oscl at 2. rewrite (pow_words k is js Hi Hj). unfold osumw, oscl.
    transitivity (Cmul (@kpow CS t k) (csumw k (fun w => Csub (Cmul (rc (word_coeff l w)) (op_word w is js)) (Cmul (fk k) (op_word w is js))))).
    + rewrite csumw_sub, csumw_mul. apply C_ext; cbn; ring.
    + change (@kmul CS) with Cmul. f_equal. apply csumw_ext. intros w _. unfold rc, fk. apply C_ext; cbn; ring.
Qed.
End Error.
