(** * Environments of the quadratic form that are not empty: any starting site, single_site_matrix *)
From Coq Require Import Bool List Arith ZArith Lia Ring.
From Verif Require Import Scalar ScalarFacts Tensor TensorFacts Spec MpsModel MpsFacts EnvFacts ExpectedFacts MpoSpec MpoFacts FormModel FormSpec LFormFacts LFormValue QFormFacts QFormInv QFormValue QFormMain MinLive.
Import ListNotations.
Local Open Scope K_scope.

Section Facts.
Context {SC : Scalar}.
Add Ring Kring : k_ring.

Variable O : mpo.
Hypothesis HO : open_mpo O.
Hypothesis Hsq : odims O = idims O.
Variable b : nat -> nat.
Hypothesis Hb : path O b.
Notation live := (live O b).
Notation live_left := (live_left O HO Hsq b Hb).

Lemma live_right_at f p p' A B c c' : qinv0 O f -> qf_here f = length p -> length p' = length p -> (length p + 1 < length O)%nat ->
  qinv_left O f p p' -> linked 1 (p ++ [A]) c -> linked 1 (p' ++ [B]) c' ->
  dim A 1 = nth (length p) (odims O) 0%nat -> dim B 1 = nth (length p) (idims O) 0%nat ->
  is_empty (qf_left f (length p) (b (length p))) = false -> forall k, (k = length p + 1)%nat \/ is_empty (qf_left f k (b k)) = false ->
  is_empty (qf_left (qf_propagate_right f A B) k (b k)) = false.
Proof.
  intros H0 Hh Hpp Hlt HL HA HB HdA HdB Hl0 k Hk.
  destruct (Nat.eq_dec k (length p + 1)) as [->|Hne]; [|rewrite (q_after_right O) by (try assumption; lia); destruct Hk as [|Hk]; [contradiction|exact Hk]].
  apply linked_app in HA. destruct HA as (la & Hp & (da & ca & A1 & A2 & A3 & A4 & A5)). cbn in A5. subst ca.
  apply linked_app in HB. destruct HB as (lb & Hp' & (db & cb & B1 & B2 & B3 & B4 & B5)). cbn in B5. subst cb.
  destruct (site_dims O HO Hsq (length p) ltac:(lia)) as (d & Ht & Hwt & Hd0 & Hd1 & Hd2).
  assert (da = d) as -> by (unfold dim in HdA; rewrite A1 in HdA; cbn [nth] in HdA; lia).
  assert (db = d) as -> by (unfold dim in HdB; rewrite B1 in HdB; cbn [nth] in HdB; lia).
  assert (HLv : forall m, (m < bond O (length p))%nat -> is_empty (qf_left f (length p) m) = false -> wf (qf_left f (length p) m) /\ dims (qf_left f (length p) m) = [1; 1; la; lb]%nat).
  { intros m Hm HE. apply (vten_full _ _ _ (HL (length p) m la lb (le_n _) Hm ltac:(rewrite firstn_all; exact Hp) ltac:(rewrite <- Hpp, firstn_all; exact Hp')) HE). }
  unfold qf_propagate_right. pose proof H0 as (H1 & H2 & H3 & H4). rewrite H1, Hh.
  destruct (Nat.eqb_spec (length p + 1) (length O)) as [|_]; [lia|].
  unfold qf_left. cbn [qf_matrix]. rewrite nth_replace_nth_eq by lia. rewrite (pairs_at O f (length p) H0) by lia. rewrite H4 by lia.
  apply (fold_live p_left p_right (qf_left f (length p)) (fun M o => prop_matrix M 1 A B (Some o))).
  - intros q Hq. destruct (site_pairs_In _ _ _ _ _ q Ht Hq) as (m & n & Hm & Hn & ->). cbn [p_left p_right new_pair p_op].
    rewrite repeat_length. replace (length p + 1)%nat with (S (length p)) by lia. split; [exact Hn|]. intros HE.
    destruct (HLv m Hm HE) as (W1 & W2).
    destruct (prop_right_vten (qf_left f (length p) m) A B (blk (site O (length p)) m n) la lb d c d c' (fun z w => get (qf_left f (length p) m) [0; 0; z; w]%nat) HE W1 W2)
      as (V1 & V2 & _); auto. { eapply blk_dims; exact Ht. }
    unfold blk in V1, V2. cbn [p_op new_pair] in V1, V2. apply is_empty_wf; [exact V1|]. rewrite V2. cbn. nia.
  - right. exists (new_pair (b (length p)) (b (S (length p))) (site O (length p))). split; [apply Hb; lia|]. cbn [p_left p_right new_pair].
    split; [exact Hl0|]. f_equal. lia.
Qed.

Lemma live_new_at bra ket s f : open_mps bra -> open_mps ket -> pdims bra = odims O -> pdims ket = idims O -> qform_new O bra ket (Z.of_nat s) = Ok f -> live f.
Proof.
  intros (Hbn & Hbl) (Hpn & Hpl) Hbd Hpd. unfold qform_new.
  destruct (negb _) eqn:Eg; [discriminate|]. clear Eg. 
  destruct (Z.ltb_spec (Z.of_nat s) 0); [lia|]. destruct (Z.leb_spec (Z.of_nat (length O)) (Z.of_nat s)); [discriminate|]. cbn [orb].
  rewrite Nat2Z.id. assert (Hs : (s < length O)%nat) by lia.
  set (N := length O) in *. assert (HN : (0 < N)%nat) by lia.
  assert (HbN : length bra = N) by (rewrite <- (length_pdims bra), Hbd; apply length_odims).
  assert (HpN : length ket = N) by (rewrite <- (length_pdims ket), Hpd; apply length_idims).
  assert (Hsb : forall k, (k < N)%nat -> dim (site bra k) 1 = nth k (odims O) 0%nat).
  { intros k Hk. rewrite <- Hbd. unfold pdims, site. rewrite (nth_indep _ 0%nat (dim empty 1)) by (rewrite map_length; lia).
    rewrite (map_nth (fun A => dim A 1)). reflexivity. }
  assert (Hsp : forall k, (k < N)%nat -> dim (site ket k) 1 = nth k (idims O) 0%nat).
  { intros k Hk. rewrite <- Hpd. unfold pdims, site. rewrite (nth_indep _ 0%nat (dim empty 1)) by (rewrite map_length; lia).
    rewrite (map_nth (fun A => dim A 1)). reflexivity. }
  set (f0 := mkQF (N - 1) N (make_matrix_database O) (make_pairs O)).
  assert (Hdb : forall k, (k <= N)%nat -> nth k (make_matrix_database O) [] = if Nat.eqb k 0 || Nat.eqb k N then [ones1111] else repeat empty (bond O k)).
  { intros k Hk. unfold make_matrix_database. fold N. rewrite nth_map_seq by lia. destruct (Nat.eqb_spec k 0); [reflexivity|]. cbn [orb].
    destruct (Nat.eqb_spec k N); [reflexivity|]. rewrite (bond_site O k) by (fold N; lia). reflexivity. }
  assert (Hf0 : qinv0 O f0).
  { split; [reflexivity|]. split; [reflexivity|]. split; [cbn [f0 qf_matrix]; unfold make_matrix_database; rewrite map_length, seq_length; fold N; lia|].
    intros k Hk. cbn [f0 qf_matrix]. rewrite Hdb by exact Hk. destruct (Nat.eqb_spec k 0) as [->|]; [cbn; rewrite (bond_0 O HO); reflexivity|]. cbn [orb].
    destruct (Nat.eqb_spec k N) as [->|]; [cbn; unfold N; rewrite bond_N; reflexivity|]. apply repeat_length. }
  assert (Hb0 : b 0%nat = 0%nat) by (pose proof (proj1 Hb 0%nat ltac:(lia)) as H1; rewrite (bond_0 O HO) in H1; lia).
  assert (HbN0 : b N = 0%nat) by (pose proof (proj1 Hb N ltac:(unfold N; lia)) as H1; unfold N in H1; rewrite bond_N in H1; unfold N; lia).
  assert (H2 : forall n, (n <= N - 1 - s)%nat ->
    let f2 := fold_left (fun f k => qf_propagate_left f (site bra k) (site ket k)) (rev (seq (N - n) n)) f0 in
    qinv0 O f2 /\ qf_here f2 = (N - 1 - n)%nat /\
    qinv_right O f2 (N - 1 - n) (skipn (N - n) bra) (skipn (N - n) ket) /\
    forall k, (k = 0 \/ N - n <= k <= N)%nat -> is_empty (qf_left f2 k (b k)) = false).
  { induction n as [|n IH]; intros Hn f2.
    - split; [exact Hf0|]. split; [cbn; lia|]. unfold f2. cbn [seq rev fold_left]. split.
      + intros k m la lb Hk Hm Hla Hlb HL HL'. assert (k = N) as -> by (fold N in Hk; lia).
        rewrite (skipn_all2 (skipn _ bra)) in HL by (rewrite skipn_length; lia). rewrite (skipn_all2 (skipn _ ket)) in HL' by (rewrite skipn_length; lia).
        cbn in HL, HL'. subst la lb. unfold N in Hm. rewrite bond_N in Hm. assert (m = 0)%nat as -> by lia.
        replace (qf_left f0 N 0) with ones1111.
        2:{ unfold qf_left. cbn [f0 qf_matrix]. rewrite Hdb by lia. rewrite Nat.eqb_refl, orb_true_r. reflexivity. }
        apply ones_vten; [|right; reflexivity]. unfold Rval. rewrite !skipn_all2; try (rewrite ?skipn_length; unfold N in *; lia). apply QM_nil. lia.
      + intros k Hk. unfold qf_left. cbn [f0 qf_matrix]. destruct Hk as [->|Hk].
        * rewrite Hdb, Hb0 by lia. reflexivity.
        * assert (k = N) as -> by lia. rewrite Hdb, HbN0 by lia. rewrite Nat.eqb_refl, orb_true_r. reflexivity.
    - destruct (IH ltac:(lia)) as (J1 & J2 & J4 & J5). clear IH. unfold f2.
      replace (seq (N - S n) (S n)) with (N - S n :: seq (N - n) n)%nat by (cbn [seq]; do 2 f_equal; lia).
      cbn [rev]. rewrite fold_left_app. cbn [fold_left].
      set (f' := fold_left _ (rev (seq (N - n) n)) _) in *. clear f2.
      destruct (linked_skipn 1 bra 1 (N - S n) Hbl) as (c & Hc & Hcp). rewrite (skipn_nth (N - S n) bra empty) in Hc by lia.
      destruct (linked_skipn 1 ket 1 (N - S n) Hpl) as (c' & Hc' & Hcp'). rewrite (skipn_nth (N - S n) ket empty) in Hc' by lia.
      fold (site bra (N - S n)) in *. fold (site ket (N - S n)) in *.
      replace (S (N - S n)) with (N - n)%nat in * by lia.
      assert (EN : S (N - 1 - S n) = (N - 1 - n)%nat) by lia.
      assert (EN2 : S (N - 1 - S n) = (N - S n)%nat) by lia.
      assert (EN3 : S (S (N - 1 - S n)) = (N - n)%nat) by lia.
      split; [apply qinv0_left; exact J1|]. split; [rewrite qhere_left; lia|]. split.
      + rewrite (skipn_nth (N - S n) bra empty), (skipn_nth (N - S n) ket empty) by lia.
        replace (S (N - S n)) with (N - n)%nat in * by lia.
        apply (qinv_right_left O HO Hsq f' (N - 1 - S n)%nat _ _ _ _ c c'); auto; try lia.
        * rewrite !skipn_length. lia.
        * rewrite skipn_length. unfold N in *. lia.
        * rewrite EN. exact J4.
        * rewrite EN2. apply Hsb. lia.
        * rewrite EN2. apply Hsp. lia.
      + intros k Hk. apply (live_left f' (N - 1 - S n)%nat (skipn (N - n) bra) (skipn (N - n) ket) _ _ c c'); auto; try lia.
        * rewrite !skipn_length. lia.
        * rewrite skipn_length. unfold N in *. lia.
        * rewrite EN. exact J4.
        * rewrite EN2. apply Hsb. lia.
        * rewrite EN2. apply Hsp. lia.
        * rewrite EN2. destruct (Nat.eq_dec k (N - S n)) as [->|Hne]; [left; reflexivity|right; apply J5; lia].
        * rewrite EN3. apply J5. lia. }
  destruct (H2 (N - 1 - s)%nat ltac:(lia)) as (I1 & _ & _ & I4). cbv zeta in *. clear H2.
  replace (N - (N - 1 - s))%nat with (s + 1)%nat in * by lia.
  set (f1 := fold_left _ (rev (seq (s + 1) (N - 1 - s))) f0) in *.
  set (g0 := mkQF 0 N (qf_matrix f1) (qf_pairs f1)) in *.
  assert (Hg0 : qinv0 O g0) by (destruct I1 as (K1 & K2 & K3 & K4); repeat split; auto).
  assert (Hleft0 : forall n, (n < 1)%nat -> qf_left g0 0 n = ones1111).
  { intros n Hn. assert (n = 0)%nat as -> by lia. change (qf_left g0 0 0) with (qf_left f1 0 0). unfold f1.
    assert (Hgen : forall l f, (forall k, In k l -> (0 < k)%nat) -> qf_left (fold_left (fun f k => qf_propagate_left f (site bra k) (site ket k)) l f) 0 0 = qf_left f 0 0).
    { induction l as [|x l IH]; intros g Hl; [reflexivity|]. cbn [fold_left]. rewrite IH by (intros k Hk; apply Hl; right; exact Hk).
      destruct (Nat.eq_dec (qf_here g) 0) as [E|E]; [unfold qf_propagate_left; rewrite E; reflexivity|]. apply q_after_left; lia. }
    rewrite Hgen; [unfold qf_left; cbn [f0 qf_matrix]; rewrite Hdb by lia; reflexivity|]. intros k Hk. apply in_rev, in_seq in Hk. lia. }
  assert (H1 : forall n, (n <= s)%nat -> let g := fold_left (fun f k => qf_propagate_right f (site bra k) (site ket k)) (seq 0 n) g0 in
    qinv0 O g /\ qf_here g = n /\ qinv_left O g (firstn n bra) (firstn n ket) /\
    forall k, (k <= n \/ s + 1 <= k <= N)%nat -> is_empty (qf_left g k (b k)) = false).
  { induction n as [|n IH]; intros Hn g.
    - split; [exact Hg0|]. split; [reflexivity|]. split.
      + intros k m ra rb Hk Hm Hra Hrb. cbn in Hk. assert (k = 0%nat) as -> by lia. cbn in Hra, Hrb. subst ra rb.
        unfold g. cbn [seq fold_left]. rewrite (bond_0 O HO) in Hm. rewrite Hleft0 by exact Hm.
        apply ones_vten; [|left; reflexivity]. unfold Lval. cbn [firstn]. assert (m = 0)%nat as -> by lia. apply QM_nil. lia.
      + intros k Hk. unfold g. cbn [seq fold_left]. change (qf_left g0 k (b k)) with (qf_left f1 k (b k)). apply I4. lia.
    - destruct (IH ltac:(lia)) as (K1 & K2 & K3 & K4). clear IH. unfold g. rewrite seq_S, fold_left_app. cbn [fold_left Nat.add].
      set (g' := fold_left _ (seq 0 n) g0) in *. clear g.
      assert (Hln : length (firstn n bra) = n) by (rewrite firstn_length; lia).
      assert (Hln' : length (firstn n ket) = n) by (rewrite firstn_length; lia).
      destruct (linked_firstn 1 bra 1 (S n) Hbl) as (c & Hc). rewrite (firstn_S_nth n bra empty) in Hc by lia.
      destruct (linked_firstn 1 ket 1 (S n) Hpl) as (c' & Hc'). rewrite (firstn_S_nth n ket empty) in Hc' by lia.
      split; [apply qinv0_right; exact K1|]. split; [rewrite (qhere_right O); [lia|exact K1|unfold N in *; lia]|]. split.
      + rewrite (firstn_S_nth n bra empty), (firstn_S_nth n ket empty) by lia.
        apply (qinv_left_right O HO Hsq g' _ _ _ _ c c'); auto; rewrite ?Hln, ?Hln'; try (unfold N in *; lia); [apply Hsb; lia|apply Hsp; lia].
      + intros k Hk. apply (live_right_at g' (firstn n bra) (firstn n ket) _ _ c c'); auto; rewrite ?Hln, ?Hln'; try (unfold N in *; lia); [apply Hsb; lia|apply Hsp; lia|apply K4; lia|].
        destruct (Nat.eq_dec k (n + 1)); [left; assumption|right; apply K4; lia]. }
  destruct (H1 s ltac:(lia)) as (_ & _ & _ & K4). cbv zeta in *.
  intros E. apply (f_equal (fun r => match r with Ok x => x | Abort => f end)) in E. cbn beta iota in E. rewrite <- E.
  intros k Hk. apply K4. fold N in Hk. lia.
Qed.
Lemma live_matrix1 f p q p' q' S T v : qinv O f p q p' q' -> live f ->
  linked 1 (p ++ S :: q) 1 -> linked 1 (p' ++ T :: q') 1 -> pdims (p ++ S :: q) = odims O -> pdims (p' ++ T :: q') = idims O ->
  single_site_matrix f = Ok v -> is_empty v = false.
Proof.
  intros Hi Hlive HS HT HdS HdT Hv. destruct (one_site_setup O HO Hsq f p q p' q' S T Hi HS HT HdS HdT) as
    (ra & rb & ca & cb & d & S1 & T1 & _ & _ & Hpos & _ & _ & _ & _ & Ht & Hps & HL & HR & _).
  assert (Hh : qf_here f = length p) by apply Hi. assert (Hlen : (length p < length O)%nat) by (destruct Hi as (_ & _ & _ & _ & Hl & _); lia).
  unfold single_site_matrix in Hv. rewrite Hh, Hps in Hv. revert Hv. apply add_pairs_live.
  - intros p0 t Hp0 Et HE. apply orb_false_iff in HE. destruct HE as (E1 & E2).
    destruct (site_pairs_In _ _ _ _ _ p0 Ht Hp0) as (m & n & Hm & Hn & ->). cbn [p_left p_right p_op new_pair] in *.
    destruct (vten_full _ _ _ (HL m Hm) E1) as (W1 & W2). destruct (vten_full _ _ _ (HR n Hn) E2) as (V1 & V2).
    unfold qf_compose in Et. unfold dim in Et. rewrite W2, V2 in Et. cbn [nth Nat.eqb andb] in Et.
    apply (f_equal (fun r => match r with Ok x => x | Abort => t end)) in Et. cbn beta iota in Et. subst t.
    apply is_empty_wf; [apply wf_mk|]. unfold kron at 1. rewrite dims_mk. unfold kron. unfold dim. cbn [dims mk reshape]. rewrite Ht. cbn [nth]. cbn. nia.
  - exists (new_pair (b (length p)) (b (Datatypes.S (length p))) (site O (length p))). split; [apply Hb; exact Hlen|]. cbn [p_left p_right new_pair].
    apply orb_false_iff. split; [apply Hlive; lia|]. unfold qf_right. rewrite Nat.add_1_r. apply Hlive. lia.
Qed.

End Facts.
