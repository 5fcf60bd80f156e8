(** The result of apply_one_site_matrix and apply_two_site_matrix is not empty if the operator is not zero *)
From Coq Require Import Bool List Arith ZArith Lia Ring.
From Verif Require Import Scalar ScalarFacts Tensor TensorFacts Spec MpsModel MpsFacts EnvFacts ExpectedFacts MpoSpec MpoFacts FormModel FormSpec LFormFacts LFormValue QFormFacts QFormInv QFormValue QFormMain.
Import ListNotations.
Local Open Scope K_scope.

Section Facts.
Context {SC : Scalar}.
Add Ring Kring : k_ring.

Lemma sum_nonzero n (F : nat -> K) : sum n F <> 0 -> exists i, (i < n)%nat /\ F i <> 0.
Proof.
  induction n as [|n IH]; intros H; cbn in H; [congruence|]. destruct (keqb_spec (F n) 0) as [E|E].
  - rewrite E in H. destruct IH as (i & Hi & Hn); [intros E2; apply H; rewrite E2; ring|]. exists i. split; [lia|exact Hn].
  - exists n. split; [lia|exact E].
Qed.

(** A term of the sum over bond indices that is not zero *)
Lemma mchain_path O : forall l is js a c r, mlinked l O r -> (a < l)%nat -> in_range (odims O) is -> in_range (idims O) js -> mchain O is js a c <> 0 ->
  exists b : nat -> nat, b 0%nat = a /\ b (length O) = c /\ forall k, (k < length O)%nat ->
    (b k < dim (site O k) 0)%nat /\ (b (S k) < dim (site O k) 3)%nat /\
    (nth k is 0 < dim (site O k) 1)%nat /\ (nth k js 0 < dim (site O k) 2)%nat /\ get (site O k) [b k; nth k is 0%nat; nth k js 0%nat; b (S k)] <> 0.
Proof.
  induction O as [|A O IH]; intros l is js a c r HL Ha Hi Hj H.
  - apply in_range_nil_inv in Hi, Hj. subst. cbn in H. unfold delta in H. destruct (Nat.eqb_spec a c) as [->|]; [|congruence].
    exists (fun _ => c). repeat split; intros; cbn in *; lia.
  - apply in_range_cons_inv in Hi. destruct Hi as (i & is' & -> & Hi & Hi'). apply in_range_cons_inv in Hj. destruct Hj as (j & js' & -> & Hj & Hj').
    cbn [mchain] in H. destruct HL as (d & e & m & HA & _ & _ & _ & Hm & HL).
    apply sum_nonzero in H. destruct H as (x & Hx & H).
    assert (H1 : get A [a; i; j; x] <> 0) by (intros E; apply H; rewrite E; ring).
    assert (H2 : mchain O is' js' x c <> 0) by (intros E; apply H; rewrite E; ring).
    assert (Ex : dim A 3 = m) by (unfold dim; rewrite HA; reflexivity).
    destruct (IH m is' js' x c r HL ltac:(lia) Hi' Hj' H2) as (b & B0 & BN & HB).
    exists (fun k => match k with 0%nat => a | S k => b k end). split; [reflexivity|]. split; [exact BN|].
    intros [|k] Hk.
    + change (site (A :: O) 0) with A. rewrite B0. cbn [nth]. repeat split; try assumption. unfold dim. rewrite HA. exact Ha.
    + change (site (A :: O) (S k)) with (site O k). apply HB. cbn in Hk. lia.
Qed.

Lemma nonzero_block t l d e c m n i j : dims t = [l; d; e; c] -> (m < l)%nat -> (n < c)%nat -> (i < d)%nat -> (j < e)%nat ->
  get t [m; i; j; n] <> 0 -> In (new_pair m n t) (site_pairs t).
Proof.
  intros Ht Hm Hn Hi Hj H. unfold site_pairs. apply filter_In. split.
  - apply in_flat_map. exists m. split; [apply in_seq; unfold dim; rewrite Ht; cbn; lia|]. apply (in_map (fun j => new_pair m j t)). apply in_seq. unfold dim. rewrite Ht. cbn. lia.
  - apply negb_true_iff. destruct (is_zero_tensor _) eqn:E; [|reflexivity]. exfalso. apply H.
    rewrite <- (blk_get t m n i j l d e c) by assumption. unfold blk.
    apply (proj1 (is_zero_tensor_spec _ (wf_mk _ _)) E). cbn [dims mk]. unfold dim. rewrite Ht. apply in_range_2; assumption.
Qed.

Lemma maybe_add_live a b : is_empty b = false -> is_empty (maybe_add a b) = false.
Proof.
  intros H. unfold maybe_add. destruct (is_empty a) eqn:E; [exact H|]. unfold is_empty, tadd in *. cbn [data].
  destruct (data a), (data b); try discriminate. reflexivity.
Qed.

Lemma fold_live (src tgt : qpair -> nat) (old : nat -> tensor) (P : tensor -> tensor -> tensor) l : forall m n,
  (forall p, In p l -> (tgt p < length m)%nat /\ (is_empty (old (src p)) = false -> is_empty (P (old (src p)) (p_op p)) = false)) ->
  (is_empty (nth n m empty) = false \/ exists p, In p l /\ is_empty (old (src p)) = false /\ tgt p = n) ->
  is_empty (nth n (fold_left (fun m p => let M := old (src p) in if is_empty M then m
        else replace_nth (tgt p) (maybe_add (nth (tgt p) m empty) (P M (p_op p))) m) l m) empty) = false.
Proof.
  induction l as [|p l IH]; intros m n Hl H.
  - destruct H as [H|(p & [] & _)]. exact H.
  - cbn [fold_left]. cbv zeta. destruct (Hl p (or_introl eq_refl)) as (Ht & Hp).
    destruct (is_empty (old (src p))) eqn:E.
    + apply IH; [intros q Hq; apply Hl; right; exact Hq|]. destruct H as [H|(q & [<-|Hq] & H1 & H2)]; [left; exact H|congruence|right; exists q; auto].
    + apply IH; [intros q Hq; rewrite length_replace_nth; apply Hl; right; exact Hq|].
      destruct (Nat.eq_dec (tgt p) n) as [<-|Hne].
      * left. rewrite nth_replace_nth_eq by exact Ht. apply maybe_add_live. auto.
      * rewrite nth_replace_nth_neq by congruence. destruct H as [H|(q & [<-|Hq] & H1 & H2)]; [left; exact H|congruence|right; exists q; auto].
Qed.

Lemma add_pairs_live l left right term v : (forall p t, In p l -> term (left p) (p_op p) (right p) = Ok t -> is_empty (left p) || is_empty (right p) = false -> is_empty t = false) ->
  (exists p, In p l /\ is_empty (left p) || is_empty (right p) = false) -> add_pairs l left right term = Ok v -> is_empty v = false.
Proof.
  intros Hl (p0 & Hp0 & E0). unfold add_pairs.
  assert (H : forall l m, (forall p, In p l -> In p l) -> (forall p t, In p l -> term (left p) (p_op p) (right p) = Ok t -> is_empty (left p) || is_empty (right p) = false -> is_empty t = false) ->
    (is_empty m = false \/ In p0 l) -> fold_left (fun out p => bind out (fun o =>
    let L := left p in let R := right p in
    if is_empty L || is_empty R then Ok o
    else bind (term L (p_op p) R) (fun t => Ok (maybe_add o t)))) l (Ok m) = Ok v -> is_empty v = false).
  { clear l Hl Hp0. induction l as [|p l IH]; intros m Hs Hl H Hv.
    - cbn in Hv. apply (f_equal (fun r => match r with Ok x => x | Abort => v end)) in Hv. cbn in Hv. subst v. destruct H as [H|[]]. exact H.
    - cbn [fold_left bind] in Hv. cbv zeta in Hv. destruct (is_empty (left p) || is_empty (right p)) eqn:E.
      + apply (IH m) in Hv; auto. { intros q t Hq. apply Hl. right. exact Hq. } destruct H as [H|[<-|H]]; [left; exact H|congruence|right; exact H].
      + destruct (term (left p) (p_op p) (right p)) as [t|] eqn:Et.
        * cbn [bind] in Hv. apply (IH (maybe_add m t)) in Hv; auto.
          -- intros q u Hq. apply Hl. right. exact Hq.
          -- left. apply maybe_add_live. apply (Hl p t); auto. left. reflexivity.
        * exfalso. clear -Hv. cbn [bind] in Hv. induction l as [|q l IHl]; [discriminate|]. cbn [fold_left bind] in Hv. auto. }
  intros Hv. apply (H l empty); auto.
Qed.

Lemma add_pairs2_live l1 l2 left right term v :
  (forall p1 p2, In p1 l1 -> In p2 l2 -> is_empty (left p1) || is_empty (right p2) = false ->
     exists t, term (left p1) (p_op p1) (p_op p2) (right p2) = Ok t /\ is_empty t = false) ->
  (exists p1 p2, In p1 l1 /\ In p2 l2 /\ p_right p1 = p_left p2 /\ is_empty (left p1) || is_empty (right p2) = false) ->
  add_pairs2 l1 l2 left right term = Ok v -> is_empty v = false.
Proof.
  intros Hl (q1 & q2 & Hq1 & Hq2 & Eq & E0). unfold add_pairs2.
  assert (H1 : forall p1, In p1 l1 -> forall l, (forall p, In p l -> In p l2) -> forall m, exists v,
    fold_left (fun out p2 => bind out (fun o =>
    if Nat.eqb (p_right p1) (p_left p2) then
      let L := left p1 in let R := right p2 in
      if is_empty L || is_empty R then Ok o
      else bind (term L (p_op p1) (p_op p2) R) (fun t => Ok (maybe_add o t))
    else Ok o)) l (Ok m) = Ok v /\ (is_empty m = false \/ (p1 = q1 /\ In q2 l) -> is_empty v = false)).
  { intros p1 Hp1. induction l as [|p l IH]; intros Hs m.
    - exists m. split; [reflexivity|]. intros [H|(_ & [])]. exact H.
    - specialize (IH (fun q Hq => Hs q (or_intror Hq))). cbn [fold_left bind].
      destruct (Nat.eqb_spec (p_right p1) (p_left p)) as [Er|Er].
      + cbv zeta. destruct (is_empty (left p1) || is_empty (right p)) eqn:E.
        * destruct (IH m) as (v' & Hv & Hm). exists v'. split; [exact Hv|]. intros [H|(-> & [<-|H])]; [auto|congruence|auto].
        * destruct (Hl p1 p Hp1 (Hs p (or_introl eq_refl)) E) as (t & -> & Et). cbn [bind].
          destruct (IH (maybe_add m t)) as (v' & Hv & Hm). exists v'. split; [exact Hv|]. intros _. apply Hm. left. apply maybe_add_live. exact Et.
      + destruct (IH m) as (v' & Hv & Hm). exists v'. split; [exact Hv|]. intros [H|(-> & [<-|H])]; [auto|congruence|auto]. }
  assert (H2 : forall l, (forall p, In p l -> In p l1) -> forall m, exists v, fold_left (fun out p1 => fold_left (fun out p2 => bind out (fun o =>
    if Nat.eqb (p_right p1) (p_left p2) then
      let L := left p1 in let R := right p2 in
      if is_empty L || is_empty R then Ok o
      else bind (term L (p_op p1) (p_op p2) R) (fun t => Ok (maybe_add o t))
    else Ok o)) l2 out) l (Ok m) = Ok v /\ (is_empty m = false \/ In q1 l -> is_empty v = false)).
  { induction l as [|p l IH]; intros Hs m.
    - exists m. split; [reflexivity|]. intros [H|[]]. exact H.
    - destruct (H1 p (Hs p (or_introl eq_refl)) l2 (fun q Hq => Hq) m) as (v1 & Ev1 & Hv1).
      destruct (IH (fun q Hq => Hs q (or_intror Hq)) v1) as (v2 & Hv2 & Hm2). exists v2.
      split; [refine (eq_trans (f_equal (fun x => fold_left _ l x) Ev1) Hv2)|].
      intros [H|[->|H]]; apply Hm2; auto. }
  destruct (H2 l1 (fun q Hq => Hq) empty) as (v' & Ev & Hm). intros Hv. pose proof (eq_trans (eq_sym Ev) Hv) as Hv'. clear Hv. rename Hv' into Hv.
  apply (f_equal (fun r => match r with Ok x => x | Abort => v end)) in Hv. cbn in Hv. subst v. apply Hm. right. exact Hq1.
Qed.

Variable O : mpo.
Hypothesis HO : open_mpo O.
Hypothesis Hsq : odims O = idims O.

(** A path of blocks different from zero through the operator *)
Definition path (b : nat -> nat) : Prop :=
  (forall k, (k <= length O)%nat -> (b k < bond O k)%nat) /\
  forall k, (k < length O)%nat -> In (new_pair (b k) (b (S k)) (site O k)) (site_pairs (site O k)).

Lemma path_exists is js : in_range (odims O) is -> in_range (idims O) js -> opelem O is js <> 0 -> exists b, path b.
Proof.
  intros Hi Hj H. unfold opelem in H. apply sum_nonzero in H. destruct H as (a & Ha & H). destruct HO as (Hn & HL).
  assert (Hm : mleft O = 1%nat).
  { destruct O as [|t O']; [congruence|]. destruct HL as (d & e & c & Ht & _). cbn. unfold dim. rewrite Ht. reflexivity. }
  assert (a = 0)%nat as -> by lia.
  destruct (mchain_path O 1 is js 0 0 1 HL ltac:(lia) Hi Hj H) as (b & B0 & BN & HB). exists b. split.
  - intros k Hk. destruct (Nat.eq_dec k (length O)) as [->|Hne].
    + rewrite BN, bond_N. lia.
    + rewrite (bond_site O k) by lia. apply HB. lia.
  - intros k Hk. destruct (HB k Hk) as (H1 & H2 & H3 & H4 & H5).
    destruct (site_dims O HO Hsq k Hk) as (d & Ht & _).
    unfold dim in *. rewrite Ht in *. cbn [nth] in *.
    apply (nonzero_block _ (bond O k) d d (bond O (S k)) _ _ (nth k is 0%nat) (nth k js 0%nat)); assumption.
Qed.

Variable b : nat -> nat.
Hypothesis Hb : path b.

Definition live (f : qform) : Prop := forall k, (k <= length O)%nat -> is_empty (qf_left f k (b k)) = false.

Lemma vten_full ds M F : vten ds M F -> is_empty M = false -> wf M /\ dims M = ds.
Proof. intros [(E & _)|(_ & H1 & H2 & _)] H; [congruence|auto]. Qed.

Lemma live_right f p p' A B c c' : qinv0 O f -> qf_here f = length p -> length p' = length p -> (length p + 1 < length O)%nat ->
  qinv_left O f p p' -> linked 1 (p ++ [A]) c -> linked 1 (p' ++ [B]) c' ->
  dim A 1 = nth (length p) (odims O) 0%nat -> dim B 1 = nth (length p) (idims O) 0%nat ->
  (forall k, (k <= length O)%nat -> k <> (length p + 1)%nat -> is_empty (qf_left f k (b k)) = false) -> live (qf_propagate_right f A B).
Proof.
  intros H0 Hh Hpp Hlt HL HA HB HdA HdB Hlive k Hk.
  destruct (Nat.eq_dec k (length p + 1)) as [->|Hne]; [|rewrite (q_after_right O) by (try assumption; lia); apply Hlive; assumption].
  apply linked_app in HA. destruct HA as (la & Hp & (da & ca & A1 & A2 & A3 & A4 & A5)). cbn in A5. subst ca.
  apply linked_app in HB. destruct HB as (lb & Hp' & (db & cb & B1 & B2 & B3 & B4 & B5)). cbn in B5. subst cb.
  destruct (site_dims O HO Hsq (length p) ltac:(lia)) as (d & Ht & Hwt & Hd0 & Hd1 & Hd2).
  assert (da = d) as -> by (unfold dim in HdA; rewrite A1 in HdA; cbn [nth] in HdA; lia).
  assert (db = d) as -> by (unfold dim in HdB; rewrite B1 in HdB; cbn [nth] in HdB; lia).
  assert (HLv : forall m, (m < bond O (length p))%nat -> is_empty (qf_left f (length p) m) = false -> wf (qf_left f (length p) m) /\ dims (qf_left f (length p) m) = [1; 1; la; lb]%nat).
  { intros m Hm HE. apply (vten_full _ _ _ (HL (length p) m la lb (le_n _) Hm ltac:(rewrite firstn_all; exact Hp) ltac:(rewrite <- Hpp, firstn_all; exact Hp')) HE). }
  unfold qf_propagate_right. pose proof H0 as (H1 & H2 & H3 & H4). rewrite H1, Hh.
  destruct (Nat.eqb_spec (length p + 1) (length O)) as [|_]; [lia|].
  unfold qf_left. cbn [qf_matrix]. rewrite nth_replace_nth_eq by lia. rewrite (pairs_at O f (length p) H0) by lia. rewrite H4 by lia.
  apply (fold_live p_left p_right (qf_left f (length p)) (fun M o => prop_matrix M 1 A B (Some o))).
  - intros q Hq. destruct (site_pairs_In _ _ _ _ _ q Ht Hq) as (m & n & Hm & Hn & ->). cbn [p_left p_right new_pair p_op].
    rewrite repeat_length. replace (length p + 1)%nat with (S (length p)) by lia. split; [exact Hn|]. intros HE.
    destruct (HLv m Hm HE) as (W1 & W2).
    destruct (prop_right_vten (qf_left f (length p) m) A B (blk (site O (length p)) m n) la lb d c d c' (fun z w => get (qf_left f (length p) m) [0; 0; z; w]%nat) HE W1 W2)
      as (V1 & V2 & _); auto. { eapply blk_dims; exact Ht. }
    unfold blk in V1, V2. cbn [p_op new_pair] in V1, V2. apply is_empty_wf; [exact V1|]. rewrite V2. cbn. nia.
  - right. exists (new_pair (b (length p)) (b (S (length p))) (site O (length p))). split; [apply Hb; lia|]. cbn [p_left p_right new_pair].
    split; [apply Hlive; lia|]. f_equal. lia.
Qed.

Lemma live_left f h q q' A B c c' : qinv0 O f -> qf_here f = S h -> length q' = length q -> (S (S h) + length q = length O)%nat ->
  qinv_right O f (S h) q q' -> (0 < c)%nat -> (0 < c')%nat -> linked c (A :: q) 1 -> linked c' (B :: q') 1 ->
  dim A 1 = nth (S h) (odims O) 0%nat -> dim B 1 = nth (S h) (idims O) 0%nat ->
  forall k, (k = S h \/ is_empty (qf_left f k (b k)) = false) -> is_empty (qf_left f (S (S h)) (b (S (S h)))) = false ->
  is_empty (qf_left (qf_propagate_left f A B) k (b k)) = false.
Proof.
  intros H0 Hh Hqq Hlt HR Hc Hc' HA HB HdA HdB k Hk Hnext.
  destruct (Nat.eq_dec k (S h)) as [->|Hne]; [|rewrite q_after_left by (try assumption; lia); destruct Hk; [congruence|assumption]].
  pose proof HA as (da & ca & A1 & A2 & A3 & A4 & A5). pose proof HB as (db & cb & B1 & B2 & B3 & B4 & B5).
  destruct (site_dims O HO Hsq (S h) ltac:(lia)) as (d & Ht & Hwt & Hd0 & Hd1 & Hd2).
  assert (da = d) as -> by (unfold dim in HdA; rewrite A1 in HdA; cbn [nth] in HdA; lia).
  assert (db = d) as -> by (unfold dim in HdB; rewrite B1 in HdB; cbn [nth] in HdB; lia).
  assert (HRv : forall m, (m < bond O (S (S h)))%nat -> is_empty (qf_left f (S (S h)) m) = false -> wf (qf_left f (S (S h)) m) /\ dims (qf_left f (S (S h)) m) = [ca; cb; 1; 1]%nat).
  { intros m Hm HE. refine (vten_full _ _ _ (HR (S (S h)) m ca cb _ Hm A4 B4 _ _) HE); [lia| |]; rewrite Nat.sub_diag; assumption. }
  unfold qf_propagate_left. pose proof H0 as (H1 & H2 & H3 & H4). destruct (Nat.eqb_spec (qf_here f) 0) as [|_]; [lia|].
  unfold qf_left. cbn [qf_matrix]. rewrite Hh. rewrite nth_replace_nth_eq by lia. rewrite (pairs_at O f (S h) H0) by lia.
  rewrite H4 by lia. replace (S h + 1)%nat with (S (S h)) by lia.
  apply (fold_live p_right p_left (qf_left f (S (S h))) (fun M o => prop_matrix M (-1) A B (Some o))).
  - intros p Hq. destruct (site_pairs_In _ _ _ _ _ p Ht Hq) as (m & n & Hm & Hn & ->). cbn [p_left p_right new_pair p_op].
    rewrite repeat_length. split; [exact Hm|]. intros HE.
    destruct (HRv n Hn HE) as (W1 & W2).
    destruct (prop_left_vten (qf_left f (S (S h)) n) A B (blk (site O (S h)) m n) c c' d ca cb (fun z w => get (qf_left f (S (S h)) n) [z; w; 0; 0]%nat) HE W1 W2)
      as (V1 & V2 & _); auto. { eapply blk_dims; exact Ht. }
    unfold blk in V1, V2. cbn [p_op new_pair] in V1, V2. apply is_empty_wf; [exact V1|]. rewrite V2. cbn. nia.
  - right. exists (new_pair (b (S h)) (b (S (S h))) (site O (S h))). split; [apply Hb; lia|]. cbn [p_left p_right new_pair]. auto.
Qed.

(** The constructor, at the first site *)
Lemma live_new bra ket f : open_mps bra -> open_mps ket -> pdims bra = odims O -> pdims ket = idims O -> qform_new O bra ket 0 = Ok f -> live f.
Proof.
  intros (Hbn & Hbl) (Hpn & Hpl) Hbd Hpd. unfold qform_new.
  destruct (negb _) eqn:Eg; [discriminate|]. clear Eg. change (0 <? 0)%Z with false. cbn [orb].
  destruct (Z.leb_spec (Z.of_nat (length O)) 0); [discriminate|]. change (Z.to_nat 0) with 0%nat.
  set (N := length O) in *. assert (HN : (0 < N)%nat) by lia.
  assert (HbN : length bra = N) by (rewrite <- (length_pdims bra), Hbd; apply length_odims).
  assert (HpN : length ket = N) by (rewrite <- (length_pdims ket), Hpd; apply length_idims).
  assert (Hsb : forall k, (k < N)%nat -> dim (site bra k) 1 = nth k (odims O) 0%nat).
  { intros k Hk. rewrite <- Hbd. unfold pdims, site. rewrite (nth_indep _ 0%nat (dim empty 1)) by (rewrite map_length; lia).
    rewrite (map_nth (fun A => dim A 1)). reflexivity. }
  assert (Hsp : forall k, (k < N)%nat -> dim (site ket k) 1 = nth k (idims O) 0%nat).
  { intros k Hk. rewrite <- Hpd. unfold pdims, site. rewrite (nth_indep _ 0%nat (dim empty 1)) by (rewrite map_length; lia).
    rewrite (map_nth (fun A => dim A 1)). reflexivity. }
  set (f0 := mkQF (N - 1) N (make_matrix_database O) (make_pairs O)).
  assert (Hdb : forall k, (k <= N)%nat -> nth k (make_matrix_database O) [] = if Nat.eqb k 0 || Nat.eqb k N then [ones1111] else repeat empty (bond O k)).
  { intros k Hk. unfold make_matrix_database. fold N. rewrite nth_map_seq by lia. destruct (Nat.eqb_spec k 0); [reflexivity|]. cbn [orb].
    destruct (Nat.eqb_spec k N); [reflexivity|]. rewrite (bond_site O k) by (fold N; lia). reflexivity. }
  assert (Hf0 : qinv0 O f0).
  { split; [reflexivity|]. split; [reflexivity|]. split; [cbn [f0 qf_matrix]; unfold make_matrix_database; rewrite map_length, seq_length; fold N; lia|].
    intros k Hk. cbn [f0 qf_matrix]. rewrite Hdb by exact Hk. destruct (Nat.eqb_spec k 0) as [->|]; [cbn; rewrite (bond_0 O HO); reflexivity|]. cbn [orb].
    destruct (Nat.eqb_spec k N) as [->|]; [cbn; unfold N; rewrite bond_N; reflexivity|]. apply repeat_length. }
  assert (Hb0 : b 0%nat = 0%nat) by (pose proof (proj1 Hb 0%nat ltac:(lia)) as H1; rewrite (bond_0 O HO) in H1; lia).
  assert (HbN0 : b N = 0%nat) by (pose proof (proj1 Hb N ltac:(unfold N; lia)) as H1; unfold N in H1; rewrite bond_N in H1; unfold N; lia).
  assert (H2 : forall n, (n <= N - 1)%nat ->
    let f2 := fold_left (fun f k => qf_propagate_left f (site bra k) (site ket k)) (rev (seq (N - n) n)) f0 in
    qinv0 O f2 /\ qf_here f2 = (N - 1 - n)%nat /\
    qinv_right O f2 (N - 1 - n) (skipn (N - n) bra) (skipn (N - n) ket) /\
    forall k, (k = 0 \/ N - n <= k <= N)%nat -> is_empty (qf_left f2 k (b k)) = false).
  { induction n as [|n IH]; intros Hn f2.
    - split; [exact Hf0|]. split; [cbn; lia|]. unfold f2. cbn [seq rev fold_left]. split.
      + intros k m la lb Hk Hm Hla Hlb HL HL'. assert (k = N) as -> by (fold N in Hk; lia).
        rewrite (skipn_all2 (skipn _ bra)) in HL by (rewrite skipn_length; lia). rewrite (skipn_all2 (skipn _ ket)) in HL' by (rewrite skipn_length; lia).
        cbn in HL, HL'. subst la lb. unfold N in Hm. rewrite bond_N in Hm. assert (m = 0)%nat as -> by lia.
        replace (qf_left f0 N 0) with ones1111.
        2:{ unfold qf_left. cbn [f0 qf_matrix]. rewrite Hdb by lia. rewrite Nat.eqb_refl, orb_true_r. reflexivity. }
        apply ones_vten; [|right; reflexivity]. unfold Rval. rewrite !skipn_all2; try (rewrite ?skipn_length; unfold N in *; lia). apply QM_nil. lia.
      + intros k Hk. unfold qf_left. cbn [f0 qf_matrix]. destruct Hk as [->|Hk].
        * rewrite Hdb, Hb0 by lia. reflexivity.
        * assert (k = N) as -> by lia. rewrite Hdb, HbN0 by lia. rewrite Nat.eqb_refl, orb_true_r. reflexivity.
    - destruct (IH ltac:(lia)) as (J1 & J2 & J4 & J5). clear IH. unfold f2.
      replace (seq (N - S n) (S n)) with (N - S n :: seq (N - n) n)%nat by (cbn [seq]; do 2 f_equal; lia).
      cbn [rev]. rewrite fold_left_app. cbn [fold_left].
      set (f' := fold_left _ (rev (seq (N - n) n)) _) in *. clear f2.
      destruct (linked_skipn 1 bra 1 (N - S n) Hbl) as (c & Hc & Hcp). rewrite (skipn_nth (N - S n) bra empty) in Hc by lia.
      destruct (linked_skipn 1 ket 1 (N - S n) Hpl) as (c' & Hc' & Hcp'). rewrite (skipn_nth (N - S n) ket empty) in Hc' by lia.
      fold (site bra (N - S n)) in *. fold (site ket (N - S n)) in *.
      replace (S (N - S n)) with (N - n)%nat in * by lia.
      assert (EN : S (N - 1 - S n) = (N - 1 - n)%nat) by lia.
      assert (EN2 : S (N - 1 - S n) = (N - S n)%nat) by lia.
      assert (EN3 : S (S (N - 1 - S n)) = (N - n)%nat) by lia.
      split; [apply qinv0_left; exact J1|]. split; [rewrite qhere_left; lia|]. split.
      + rewrite (skipn_nth (N - S n) bra empty), (skipn_nth (N - S n) ket empty) by lia.
        replace (S (N - S n)) with (N - n)%nat in * by lia.
        apply (qinv_right_left O HO Hsq f' (N - 1 - S n)%nat _ _ _ _ c c'); auto; try lia.
        * rewrite !skipn_length. lia.
        * rewrite skipn_length. unfold N in *. lia.
        * rewrite EN. exact J4.
        * rewrite EN2. apply Hsb. lia.
        * rewrite EN2. apply Hsp. lia.
      + intros k Hk. apply (live_left f' (N - 1 - S n)%nat (skipn (N - n) bra) (skipn (N - n) ket) _ _ c c'); auto; try lia.
        * rewrite !skipn_length. lia.
        * rewrite skipn_length. unfold N in *. lia.
        * rewrite EN. exact J4.
        * rewrite EN2. apply Hsb. lia.
        * rewrite EN2. apply Hsp. lia.
        * rewrite EN2. destruct (Nat.eq_dec k (N - S n)) as [->|Hne]; [left; reflexivity|right; apply J5; lia].
        * rewrite EN3. apply J5. lia. }
  destruct (H2 (N - 1)%nat ltac:(lia)) as (_ & _ & _ & I). replace (N - (N - 1))%nat with 1%nat in I by lia.
  cbn [seq fold_left Nat.add]. rewrite Nat.sub_0_r. intros E.
  apply (f_equal (fun r => match r with Ok x => x | Abort => f end)) in E. cbn beta iota in E. rewrite <- E.
  intros k Hk. change (is_empty (qf_left (fold_left (fun f k => qf_propagate_left f (site bra k) (site ket k)) (rev (seq 1 (N - 1))) f0) k (b k)) = false).
  apply I. fold N in Hk. lia.
Qed.

(** The results of apply_one_site_matrix *)
Lemma live_apply1 f p q p' q' S T v : qinv O f p q p' q' -> live f ->
  linked 1 (p ++ S :: q) 1 -> linked 1 (p' ++ T :: q') 1 -> pdims (p ++ S :: q) = odims O -> pdims (p' ++ T :: q') = idims O ->
  apply_one_site_matrix f T = Ok v -> is_empty v = false.
Proof.
  intros Hi Hlive HS HT HdS HdT Hv. destruct (one_site_setup O HO Hsq f p q p' q' S T Hi HS HT HdS HdT) as
    (ra & rb & ca & cb & d & S1 & T1 & _ & _ & Hpos & _ & _ & _ & _ & Ht & Hps & HL & HR & _).
  assert (Hh : qf_here f = length p) by apply Hi. assert (Hlen : (length p < length O)%nat) by (destruct Hi as (_ & _ & _ & _ & Hl & _); lia).
  unfold apply_one_site_matrix in Hv. rewrite Hh, Hps in Hv. revert Hv. apply add_pairs_live.
  - intros p0 t Hp0 Et HE. apply orb_false_iff in HE. destruct HE as (E1 & E2).
    destruct (site_pairs_In _ _ _ _ _ p0 Ht Hp0) as (m & n & Hm & Hn & ->). cbn [p_left p_right p_op new_pair] in *.
    destruct (vten_full _ _ _ (HL m Hm) E1) as (W1 & W2). destruct (vten_full _ _ _ (HR n Hn) E2) as (V1 & V2).
    apply (f_equal (fun r => match r with Ok x => x | Abort => t end)) in Et. cbn beta iota in Et. subst t.
    cbv beta.
    apply is_empty_wf; [apply wf_mk|].
    unfold fold at 1. rewrite dims_mk. unfold fold. cbn [dims mk]. unfold foldin. cbn [dims mk reshape]. unfold dim. rewrite T1, Ht. cbn. rewrite ?W2, ?V2. cbn. nia.
  - exists (new_pair (b (length p)) (b (Datatypes.S (length p))) (site O (length p))). split; [apply Hb; exact Hlen|]. cbn [p_left p_right new_pair].
    apply orb_false_iff. split; [apply Hlive; lia|]. unfold qf_right. rewrite Nat.add_1_r. apply Hlive. lia.
Qed.

(** The results of apply_two_site_matrix *)
Lemma live_apply2 f p q p' q' sense S1 S2 T1 T2 v :
  two_sites f sense = Ok (length p, length p + 1)%nat -> qinv0 O f -> length p' = length p -> length q' = length q -> (length p + 2 + length q = length O)%nat ->
  (forall m ra rb, (m < bond O (length p))%nat -> linked 1 p ra -> linked 1 p' rb ->
     vten [1; 1; ra; rb]%nat (qf_left f (length p) m) (lenv_of (fun z w => QM p p' (firstn (length p) O) 0 0 0 z w m))) ->
  (forall n ca cb, (n < bond O (length p + 2))%nat -> (0 < ca)%nat -> (0 < cb)%nat -> linked ca q 1 -> linked cb q' 1 ->
     vten [ca; cb; 1; 1]%nat (qf_right f (length p + 1) n) (renv_of (fun z w => QM q q' (skipn (length p + 2) O) z w n 0 0 0))) ->
  live f ->
  linked 1 (p ++ S1 :: S2 :: q) 1 -> linked 1 (p' ++ T1 :: T2 :: q') 1 ->
  pdims (p ++ S1 :: S2 :: q) = odims O -> pdims (p' ++ T1 :: T2 :: q') = idims O ->
  apply_two_site_matrix f (fold T1 2 T2 0) sense = Ok v -> is_empty v = false.
Proof.
  intros Hs H0 Hpp Hqq Hlen HL HR Hlive HS HT HdS HdT Hv.
  destruct (two_site_setup O HO Hsq f p q p' q' S1 S2 T1 T2 H0 Hpp Hqq Hlen HL HR HS HT HdS HdT) as
    (ra & rb & ca & cb & d1 & d2 & _ & DT & Hpos & _ & _ & _ & _ & Ht1 & Ht2 & Hp1 & Hp2 & HL' & HR' & _).
  set (P := fold T1 2 T2 0) in *. clearbody P.
  unfold apply_two_site_matrix in Hv. rewrite Hs in Hv. cbn [bind] in Hv. rewrite Hp1, Hp2 in Hv. revert Hv. apply add_pairs2_live.
  - intros q1 q2 Hq1 Hq2 HE. apply orb_false_iff in HE. destruct HE as (E1 & E2). eexists. split; [reflexivity|].
    destruct (site_pairs_In _ _ _ _ _ q1 Ht1 Hq1) as (m & n & Hm & Hn & ->). destruct (site_pairs_In _ _ _ _ _ q2 Ht2 Hq2) as (m' & n' & Hm' & Hn' & ->).
    cbn [p_left p_right p_op new_pair] in *.
    destruct (vten_full _ _ _ (HL' m Hm) E1) as (W1 & W2). destruct (vten_full _ _ _ (HR' n' Hn') E2) as (V1 & V2).
    apply is_empty_wf; [apply wf_mk|].
    unfold fold at 1. rewrite dims_mk. unfold fold. cbn [dims mk]. unfold foldin. cbn [dims mk reshape]. unfold dim. rewrite DT, Ht1, Ht2. cbn. rewrite ?W2, ?V2. cbn. nia.
  - exists (new_pair (b (length p)) (b (Datatypes.S (length p))) (site O (length p))),
           (new_pair (b (Datatypes.S (length p))) (b (Datatypes.S (Datatypes.S (length p)))) (site O (Datatypes.S (length p)))).
    rewrite Nat.add_1_r. split; [apply Hb; lia|]. split; [apply Hb; lia|]. cbn [p_left p_right new_pair]. split; [reflexivity|].
    apply orb_false_iff. split; [apply Hlive; lia|]. unfold qf_right. rewrite Nat.add_1_r. apply Hlive. lia.
Qed.
End Facts.
