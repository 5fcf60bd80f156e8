(** * QuadraticForm: the invariant kept by every history *)
From Coq Require Import Bool List Arith ZArith Lia Ring.
From Verif Require Import Scalar ScalarFacts Tensor TensorFacts Spec MpsModel MpsFacts EnvFacts ExpectedFacts MpoSpec MpoFacts FormModel FormSpec LFormFacts QFormFacts.
Import ListNotations.
Local Open Scope K_scope.

Section Facts.
Context {SC : Scalar}.
Add Ring Kring : k_ring.

Variable O : mpo.
Hypothesis HO : open_mpo O.
Hypothesis Hsq : odims O = idims O.

Definition bond (k : nat) : nat := match skipn k O with [] => 1%nat | t :: _ => dim t 0 end.

Lemma bond_ok k : mlinked 1 (firstn k O) (bond k) /\ mlinked (bond k) (skipn k O) 1 /\ (0 < bond k)%nat.
Proof.
  destruct HO as (_ & H). rewrite <- (firstn_skipn k O) in H. apply mlinked_app in H. destruct H as (m & H1 & H2).
  assert (Hm : (0 < m)%nat) by (eapply mlinked_pos; [|exact H1]; lia).
  assert (E : bond k = m).
  { unfold bond. destruct (skipn k O) as [|t r]; [cbn in H2; congruence|]. destruct H2 as (d & e & c & Ht & _). unfold dim. rewrite Ht. reflexivity. }
  rewrite E. auto.
Qed.

Lemma bond_0 : bond 0 = 1%nat.
Proof. destruct (bond_ok 0) as (H & _). cbn in H. congruence. Qed.
Lemma bond_N : bond (length O) = 1%nat.
Proof. unfold bond. rewrite skipn_all. reflexivity. Qed.
Lemma bond_site k : (k < length O)%nat -> bond k = dim (site O k) 0.
Proof. intros H. unfold bond. rewrite (skipn_nth k O empty) by exact H. reflexivity. Qed.

Lemma site_dims k : (k < length O)%nat -> exists d, dims (site O k) = [bond k; d; d; bond (S k)] /\ wf (site O k) /\ (0 < d)%nat /\
  d = nth k (odims O) 0%nat /\ d = nth k (idims O) 0%nat.
Proof.
  intros Hk. destruct (bond_ok k) as (_ & H & _). rewrite (skipn_nth k O empty) in H by exact Hk.
  destruct H as (d & e & c & Ht & Hw & Hd & He & Hc & H). fold (site O k) in *.
  assert (E : bond (S k) = c).
  { destruct (bond_ok (S k)) as (_ & H2 & _). unfold bond. destruct (skipn (S k) O) as [|t r]; [cbn in H; congruence|].
    destruct H as (? & ? & ? & Ht' & _). unfold dim. rewrite Ht'. reflexivity. }
  assert (Ed : d = nth k (odims O) 0%nat).
  { unfold odims. rewrite (nth_indep _ 0%nat (dim empty 1)) by (rewrite map_length; exact Hk). rewrite (map_nth (fun A => dim A 1)).
    fold (site O k). unfold dim. rewrite Ht. reflexivity. }
  assert (Ee : e = nth k (idims O) 0%nat).
  { unfold idims. rewrite (nth_indep _ 0%nat (dim empty 2)) by (rewrite map_length; exact Hk). rewrite (map_nth (fun A => dim A 2)).
    fold (site O k). unfold dim. rewrite Ht. reflexivity. }
  rewrite <- Hsq, <- Ed in Ee. subst e. exists d. rewrite E. repeat split; auto. rewrite <- Hsq. exact Ed.
Qed.

(** ** Invariant *)
Definition qinv0 (f : qform) : Prop :=
  qf_size f = length O /\ qf_pairs f = make_pairs O /\ length (qf_matrix f) = S (length O) /\
  forall k, (k <= length O)%nat -> length (nth k (qf_matrix f) []) = bond k.

Definition Lval (p p' : mps) (k n : nat) (z w : nat) : K := QM (firstn k p) (firstn k p') (firstn k O) 0 0 0 z w n.
Definition Rval (q q' : mps) (h k n : nat) (z w : nat) : K := QM (skipn (k - S h) q) (skipn (k - S h) q') (skipn k O) z w n 0 0 0.

Definition qinv_left (f : qform) (p p' : mps) : Prop :=
  forall k n ra rb, (k <= length p)%nat -> (n < bond k)%nat -> linked 1 (firstn k p) ra -> linked 1 (firstn k p') rb ->
    vten [1; 1; ra; rb]%nat (qf_left f k n) (lenv_of (Lval p p' k n)).
Definition qinv_right (f : qform) (h : nat) (q q' : mps) : Prop :=
  forall k n la lb, (h < k <= length O)%nat -> (n < bond k)%nat -> (0 < la)%nat -> (0 < lb)%nat ->
    linked la (skipn (k - S h) q) 1 -> linked lb (skipn (k - S h) q') 1 ->
    vten [la; lb; 1; 1]%nat (qf_left f k n) (renv_of (Rval q q' h k n)).

Definition qinv (f : qform) (p q p' q' : mps) : Prop :=
  qinv0 f /\ qf_here f = length p /\ length p' = length p /\ length q' = length q /\
  (length p + S (length q) = length O)%nat /\ qinv_left f p p' /\ qinv_right f (length p) q q'.

Lemma pairs_at f h : qinv0 f -> (h < length O)%nat -> nth h (qf_pairs f) [] = site_pairs (site O h).
Proof.
  intros (_ & H & _) Hh. rewrite H. unfold make_pairs. rewrite (nth_indep _ [] (site_pairs empty)) by (rewrite map_length; exact Hh).
  rewrite map_nth. reflexivity.
Qed.

(** Effect of a propagation *)
Lemma q_after_right f A B k : qinv0 f -> (qf_here f + 1 < length O)%nat -> k <> (qf_here f + 1)%nat -> forall n,
  qf_left (qf_propagate_right f A B) k n = qf_left f k n.
Proof.
  intros H0 Hh Hk n. unfold qf_propagate_right. destruct H0 as (H1 & _). rewrite H1. destruct (Nat.eqb_spec (qf_here f + 1) (length O)) as [|_]; [lia|].
  unfold qf_left. cbn [qf_matrix]. rewrite nth_replace_nth_neq by exact Hk. reflexivity.
Qed.

Lemma q_after_left f A B k : (0 < qf_here f)%nat -> k <> qf_here f -> forall n,
  qf_left (qf_propagate_left f A B) k n = qf_left f k n.
Proof.
  intros Hh Hk n. unfold qf_propagate_left. destruct (Nat.eqb_spec (qf_here f) 0) as [|_]; [lia|].
  unfold qf_left. cbn [qf_matrix]. rewrite nth_replace_nth_neq by exact Hk. reflexivity.
Qed.

Lemma fold_length l (g : qpair -> nat) (P : qpair -> tensor) (c : list tensor -> qpair -> tensor) (m : list tensor) :
  length (fold_left (fun m p => if is_empty (P p) then m else replace_nth (g p) (c m p) m) l m) = length m.
Proof.
  revert m. induction l as [|p l IH]; intros m; [reflexivity|]. cbn [fold_left].
  destruct (is_empty (P p)); rewrite IH; [reflexivity|apply length_replace_nth].
Qed.

Lemma qinv0_right f A B : qinv0 f -> qinv0 (qf_propagate_right f A B).
Proof.
  intros H. unfold qf_propagate_right. destruct (Nat.eqb (qf_here f + 1) (qf_size f)); [exact H|].
  destruct H as (H1 & H2 & H3 & H4). split; [exact H1|]. split; [exact H2|]. cbn [qf_matrix].
  split; [rewrite length_replace_nth; exact H3|]. intros k Hk.
  destruct (Nat.eq_dec k (qf_here f + 1)) as [->|Hne].
  - rewrite nth_replace_nth_eq by lia.
    rewrite (fold_length _ p_right (fun p => nth (p_left p) (nth (qf_here f) (qf_matrix f) []) empty)
      (fun m p => maybe_add (nth (p_right p) m empty) (prop_matrix (nth (p_left p) (nth (qf_here f) (qf_matrix f) []) empty) 1 A B (Some (p_op p))))).
    rewrite repeat_length, H4 by exact Hk. reflexivity.
  - rewrite nth_replace_nth_neq by exact Hne. apply H4. exact Hk.
Qed.

Lemma qinv0_left f A B : qinv0 f -> qinv0 (qf_propagate_left f A B).
Proof.
  intros H. unfold qf_propagate_left. destruct (Nat.eqb_spec (qf_here f) 0); [exact H|].
  destruct H as (H1 & H2 & H3 & H4). split; [exact H1|]. split; [exact H2|]. cbn [qf_matrix].
  split; [rewrite length_replace_nth; exact H3|]. intros k Hk.
  destruct (Nat.eq_dec k (qf_here f)) as [->|Hne].
  - rewrite nth_replace_nth_eq by lia.
    rewrite (fold_length _ p_left (fun p => nth (p_right p) (nth (qf_here f + 1) (qf_matrix f) []) empty)
      (fun m p => maybe_add (nth (p_left p) m empty) (prop_matrix (nth (p_right p) (nth (qf_here f + 1) (qf_matrix f) []) empty) (-1) A B (Some (p_op p))))).
    rewrite repeat_length, H4 by exact Hk. reflexivity.
  - rewrite nth_replace_nth_neq by exact Hne. apply H4. exact Hk.
Qed.

Lemma qhere_right f A B : qinv0 f -> (qf_here f + 1 < length O)%nat -> qf_here (qf_propagate_right f A B) = (qf_here f + 1)%nat.
Proof. intros (H & _) Hh. unfold qf_propagate_right. rewrite H. destruct (Nat.eqb_spec (qf_here f + 1) (length O)) as [|_]; [lia|]. reflexivity. Qed.
Lemma qhere_left f A B : (0 < qf_here f)%nat -> qf_here (qf_propagate_left f A B) = (qf_here f - 1)%nat.
Proof. intros H. unfold qf_propagate_left. destruct (Nat.eqb_spec (qf_here f) 0) as [|_]; [lia|]. reflexivity. Qed.

Lemma E1_zero A B d e o x y z w : dim A 1 = d -> dim B 1 = e -> (forall i j, (i < d)%nat -> (j < e)%nat -> get o [i; j] = 0) ->
  E1 A B (Some o) x y z w = 0.
Proof.
  intros <- <- H. unfold E1. apply sum_zero. intros i Hi. apply sum_zero. intros j Hj. cbn [opel]. rewrite H by assumption. ring.
Qed.

Lemma qinv_left_right f p p' A B c c' : qinv0 f -> qf_here f = length p -> length p' = length p -> (length p + 1 < length O)%nat ->
  qinv_left f p p' -> linked 1 (p ++ [A]) c -> linked 1 (p' ++ [B]) c' ->
  dim A 1 = nth (length p) (odims O) 0%nat -> dim B 1 = nth (length p) (idims O) 0%nat ->
  qinv_left (qf_propagate_right f A B) (p ++ [A]) (p' ++ [B]).
Proof.
  intros H0 Hh Hpp Hlt HL HA HB HdA HdB k n ra rb Hk Hn Hra Hrb. rewrite app_length in Hk. cbn [length] in Hk.
  destruct (Nat.eq_dec k (length p + 1)) as [->|Hne].
  2:{ rewrite q_after_right by (try assumption; lia).
      assert (Ef : firstn k (p ++ [A]) = firstn k p) by (rewrite firstn_app; replace (k - length p)%nat with 0%nat by lia; change (firstn 0 [A]) with (@nil tensor); apply app_nil_r).
      assert (Ef' : firstn k (p' ++ [B]) = firstn k p') by (rewrite firstn_app; replace (k - length p')%nat with 0%nat by lia; change (firstn 0 [B]) with (@nil tensor); apply app_nil_r).
      rewrite Ef in Hra. rewrite Ef' in Hrb. eapply vten_ext; [apply (HL k n ra rb); try assumption; lia|].
      intros x _. unfold lenv_of, Lval. rewrite Ef, Ef'. reflexivity. }
  rewrite firstn_all2 in Hra by (rewrite app_length; cbn; lia). rewrite firstn_all2 in Hrb by (rewrite app_length; cbn; lia).
  assert (ra = c) as -> by (eapply linked_right_unique; eauto). assert (rb = c') as -> by (eapply linked_right_unique; eauto).
  apply linked_app in HA. destruct HA as (la & Hp & (da & ca & A1 & A2 & A3 & A4 & A5)). cbn in A5. subst ca.
  apply linked_app in HB. destruct HB as (lb & Hp' & (db & cb & B1 & B2 & B3 & B4 & B5)). cbn in B5. subst cb.
  destruct (site_dims (length p) ltac:(lia)) as (d & Ht & Hwt & Hd0 & Hd1 & Hd2).
  assert (da = d) as -> by (unfold dim in HdA; rewrite A1 in HdA; cbn in HdA; congruence).
  assert (db = d) as -> by (unfold dim in HdB; rewrite B1 in HdB; cbn in HdB; congruence).
  set (t := site O (length p)) in *.
  unfold qf_propagate_right. pose proof H0 as (H1 & H2 & H3 & H4). rewrite H1. destruct (Nat.eqb_spec (qf_here f + 1) (length O)) as [|_]; [lia|].
  unfold qf_left. cbn [qf_matrix]. rewrite Hh. rewrite nth_replace_nth_eq by lia. rewrite (pairs_at f (length p) H0) by lia. fold t.
  rewrite H4 by lia.
  set (GV := fun m z w => QM p p' (firstn (length p) O) 0 0 0 z w m).
  assert (HLv : forall m, (m < bond (length p))%nat -> vten [1; 1; la; lb]%nat (qf_left f (length p) m) (lenv_of (GV m))).
  { intros m Hm. eapply vten_ext; [apply (HL (length p) m la lb); try assumption; try lia|].
    - rewrite firstn_all. exact Hp.
    - rewrite <- Hpp, firstn_all. exact Hp'.
    - intros x _. unfold lenv_of, Lval, GV. rewrite firstn_all. rewrite <- Hpp at 1. rewrite firstn_all. reflexivity. }
  destruct (step_pairs [1; 1; c; c']%nat p_left p_right (qf_left f (length p)) (fun M o => prop_matrix M 1 A B (Some o))
    (fun p0 => lenv_of (fun z w => sum la (fun a => sum lb (fun b => GV (p_left p0) a b * E1 A B (Some (p_op p0)) a b z w))))
    (bond (length p + 1)) (site_pairs t)) with (m := repeat empty (bond (length p + 1))) (F := fun (_ : nat) (_ : list nat) => 0) as (_ & HV).
  - cbn. nia.
  - intros q Hq. destruct (site_pairs_In t _ _ _ _ q Ht Hq) as (m & n' & Hm & Hn' & ->). cbn [p_right p_left p_op new_pair].
    replace (length p + 1)%nat with (S (length p)) by lia. split; [exact Hn'|].
    destruct (HLv m Hm) as [(E & HF)|(E & Hw & Hd & HF)]; rewrite E.
    + intros x Hx. unfold lenv_of. apply sum_zero. intros a Ha. apply sum_zero. intros b Hb.
      pose proof (HF [0; 0; a; b]%nat) as HF0. unfold lenv_of in HF0. cbn [nth] in HF0. rewrite HF0 by (apply in_range_4; lia). ring.
    + destruct (prop_right_vten (qf_left f (length p) m) A B (blk t m n') la lb d c d c' (GV m) E Hw Hd) as (W1 & W2 & W3); try assumption.
      * intros z w Hz Hw'. rewrite HF by (apply in_range_4; lia). reflexivity.
      * eapply blk_dims; exact Ht.
      * split; [exact W1|]. split; [exact W2|]. intros x Hx. apply in_range_inv4 in Hx. destruct Hx as (x0 & x1 & z & w & -> & Hx0 & Hx1 & Hz & Hw').
        assert (x0 = 0 /\ x1 = 0)%nat as (-> & ->) by lia. unfold lenv_of. cbn [nth]. apply W3; assumption.
  - apply repeat_length.
  - intros n0 Hn0. rewrite nth_repeat_lt by exact Hn0. apply vten_empty.
  - specialize (HV n Hn). eapply vten_ext; [exact HV|]. clear HV. intros x Hx. cbv beta.
    apply in_range_inv4 in Hx. destruct Hx as (x0 & x1 & z & w & -> & Hx0 & Hx1 & Hz & Hw'). unfold lenv_of at 2. cbn [nth].
    rewrite (lsum_pairs t _ d d _ _ Ht).
    2:{ intros q Hq. destruct (Nat.eqb (p_right q) n); [|reflexivity]. unfold lenv_of. apply sum_zero. intros a _. apply sum_zero. intros b _.
        rewrite (E1_zero A B d d); [ring| | |exact Hq]; unfold dim; [rewrite A1|rewrite B1]; reflexivity. }
    unfold Lval. rewrite !(firstn_all2) by (rewrite app_length; cbn; lia).
    replace (length p + 1)%nat with (S (length p)) in Hn |- * by lia.
    rewrite (firstn_S_nth (length p) O empty) by lia. fold (site O (length p)). fold t.
    rewrite (QM_app 1 1 1 p p' (firstn (length p) O) la lb (bond (length p)) [A] [B] [t] c c' (bond (S (length p))));
      try assumption; try lia; try (rewrite firstn_length; lia).
    2: apply bond_ok.
    2:{ cbn. exists d, c. auto. }
    2:{ cbn. exists d, c'. auto. }
    2:{ cbn. exists d, d, (bond (S (length p))). repeat split; auto. apply bond_ok. }
    transitivity (sum (bond (length p)) (fun m => sum la (fun a => sum lb (fun b => GV m a b * E1 A B (Some (blk t m n)) a b z w)))).
    + transitivity (sum (bond (length p)) (fun m => sum (bond (S (length p))) (fun n0 => delta n0 n * 
          sum la (fun a => sum lb (fun b => GV m a b * E1 A B (Some (blk t m n0)) a b z w))))).
      * match goal with |- 0 + ?X = _ => transitivity X; [ring|] end. apply sum_ext. intros m Hm. apply sum_ext. intros n0 Hn0. cbn [p_right new_pair].
        unfold delta. destruct (Nat.eqb n0 n); unfold lenv_of; cbn [nth p_left p_op]; [|ring]. fold (blk t m n0). match goal with |- ?X = 1 * ?Y => transitivity Y; [reflexivity|ring] end.
      * apply sum_ext. intros m Hm. rewrite sum_delta_l by exact Hn. reflexivity.
    + rewrite sum_swap. apply sum_ext. intros a Ha. rewrite sum_swap. apply sum_ext. intros b Hb. apply sum_ext. intros m Hm.
      rewrite (QM_single A B t a b m z w n la d c lb d c' (bond (length p)) (bond (S (length p)))) by assumption. reflexivity.
Qed.

Lemma mlinked_tail k : (k < length O)%nat -> mlinked (bond (S k)) (skipn (S k) O) 1.
Proof. intros _. apply bond_ok. Qed.

Lemma qinv_right_left f h q q' A B c c' : qinv0 f -> qf_here f = S h -> length q' = length q -> (S (S h) + length q = length O)%nat ->
  qinv_right f (S h) q q' -> (0 < c)%nat -> (0 < c')%nat -> linked c (A :: q) 1 -> linked c' (B :: q') 1 ->
  dim A 1 = nth (S h) (odims O) 0%nat -> dim B 1 = nth (S h) (idims O) 0%nat ->
  qinv_right (qf_propagate_left f A B) h (A :: q) (B :: q').
Proof.
  intros H0 Hh Hqq Hlt HR Hc Hc' HA HB HdA HdB k n la lb Hk Hn Hla Hlb Hl Hl'.
  destruct (Nat.eq_dec k (S h)) as [->|Hne].
  2:{ rewrite q_after_left by (try assumption; lia).
      replace (k - S h)%nat with (S (k - S (S h))) in Hl, Hl' by lia.
      eapply vten_ext; [apply (HR k n la lb); try assumption; lia|].
      intros x _. unfold renv_of, Rval. replace (k - S h)%nat with (S (k - S (S h))) by lia. reflexivity. }
  rewrite Nat.sub_diag in Hl, Hl'. change (linked la (A :: q) 1) in Hl. change (linked lb (B :: q') 1) in Hl'.
  assert (la = c) as -> by (eapply linked_left_unique; [|exact Hl|exact HA]; discriminate).
  assert (lb = c') as -> by (eapply linked_left_unique; [|exact Hl'|exact HB]; discriminate).
  pose proof HA as (da & ca & A1 & A2 & A3 & A4 & A5). pose proof HB as (db & cb & B1 & B2 & B3 & B4 & B5).
  destruct (site_dims (S h) ltac:(lia)) as (d & Ht & Hwt & Hd0 & Hd1 & Hd2).
  assert (da = d) as -> by (unfold dim in HdA; rewrite A1 in HdA; change (d = nth (S h) (odims O) 0)%nat in Hd1; change (da = nth (S h) (odims O) 0)%nat in HdA; congruence).
  assert (db = d) as -> by (unfold dim in HdB; rewrite B1 in HdB; change (db = nth (S h) (idims O) 0)%nat in HdB; congruence).
  set (t := site O (S h)) in *.
  unfold qf_propagate_left. pose proof H0 as (H1 & H2 & H3 & H4). destruct (Nat.eqb_spec (qf_here f) 0) as [|_]; [lia|].
  unfold qf_left. cbn [qf_matrix]. rewrite Hh. rewrite nth_replace_nth_eq by lia. rewrite (pairs_at f (S h) H0) by lia. fold t.
  rewrite H4 by lia. replace (S h + 1)%nat with (S (S h)) by lia.
  set (GV := fun m z w => QM q q' (skipn (S (S h)) O) z w m 0 0 0).
  assert (HLv : forall m, (m < bond (S (S h)))%nat -> vten [ca; cb; 1; 1]%nat (qf_left f (S (S h)) m) (renv_of (GV m))).
  { intros m Hm. eapply vten_ext; [apply (HR (S (S h)) m ca cb); try assumption; try lia|].
    - rewrite Nat.sub_diag. exact A5.
    - rewrite Nat.sub_diag. exact B5.
    - intros x _. unfold renv_of, Rval, GV. rewrite Nat.sub_diag. reflexivity. }
  destruct (step_pairs [c; c'; 1; 1]%nat p_right p_left (qf_left f (S (S h))) (fun M o => prop_matrix M (-1) A B (Some o))
    (fun p0 => renv_of (fun z w => sum ca (fun a => sum cb (fun b => E1 A B (Some (p_op p0)) z w a b * GV (p_right p0) a b))))
    (bond (S h)) (site_pairs t)) with (m := repeat empty (bond (S h))) (F := fun (_ : nat) (_ : list nat) => 0) as (_ & HV).
  - cbn. nia.
  - intros p0 Hq. destruct (site_pairs_In t _ _ _ _ p0 Ht Hq) as (m & n' & Hm & Hn' & ->). cbn [p_right p_left p_op new_pair].
    split; [exact Hm|].
    destruct (HLv n' Hn') as [(E & HF)|(E & Hw & Hd & HF)]; rewrite E.
    + intros x Hx. unfold renv_of. apply sum_zero. intros a Ha. apply sum_zero. intros b Hb.
      pose proof (HF [a; b; 0; 0]%nat) as HF0. unfold renv_of in HF0. cbn [nth] in HF0. rewrite HF0 by (apply in_range_4; lia). ring.
    + destruct (prop_left_vten (qf_left f (S (S h)) n') A B (blk t m n') c c' d ca cb (GV n') E Hw Hd) as (W1 & W2 & W3); try assumption.
      * intros z w Hz Hw'. rewrite HF by (apply in_range_4; lia). reflexivity.
      * eapply blk_dims; exact Ht.
      * split; [exact W1|]. split; [exact W2|]. intros x Hx. apply in_range_inv4 in Hx. destruct Hx as (z & w & x0 & x1 & -> & Hz & Hw' & Hx0 & Hx1).
        assert (x0 = 0 /\ x1 = 0)%nat as (-> & ->) by lia. unfold renv_of. cbn [nth]. apply W3; assumption.
  - apply repeat_length.
  - intros n0 Hn0. rewrite nth_repeat_lt by exact Hn0. apply vten_empty.
  - specialize (HV n Hn). eapply vten_ext; [exact HV|]. clear HV. intros x Hx. cbv beta.
    apply in_range_inv4 in Hx. destruct Hx as (z & w & x0 & x1 & -> & Hz & Hw' & Hx0 & Hx1). unfold renv_of at 2. cbn [nth].
    rewrite (lsum_pairs t _ d d _ _ Ht).
    2:{ intros p0 Hq. destruct (Nat.eqb (p_left p0) n); [|reflexivity]. unfold renv_of. apply sum_zero. intros a _. apply sum_zero. intros b _.
        rewrite (E1_zero A B d d); [ring| | |exact Hq]; unfold dim; [rewrite A1|rewrite B1]; reflexivity. }
    unfold Rval. rewrite Nat.sub_diag. change (skipn 0 (A :: q)) with ([A] ++ q). change (skipn 0 (B :: q')) with ([B] ++ q').
    rewrite (skipn_nth (S h) O empty) by lia. fold (site O (S h)). fold t. change (t :: skipn (S (S h)) O) with ([t] ++ skipn (S (S h)) O).
    rewrite (QM_app c c' (bond (S h)) [A] [B] [t] ca cb (bond (S (S h))) q q' (skipn (S (S h)) O) 1 1 1);
      try assumption; try lia; try reflexivity.
    2:{ cbn. exists d, ca. auto. }
    2:{ cbn. exists d, cb. auto. }
    2:{ cbn. exists d, d, (bond (S (S h))). repeat split; auto. apply bond_ok. }
    2: apply bond_ok.
    transitivity (sum (bond (S (S h))) (fun m => sum ca (fun a => sum cb (fun b => E1 A B (Some (blk t n m)) z w a b * GV m a b)))).
    + transitivity (sum (bond (S h)) (fun m => delta m n * sum (bond (S (S h))) (fun n0 => 
          sum ca (fun a => sum cb (fun b => E1 A B (Some (blk t m n0)) z w a b * GV n0 a b))))).
      * match goal with |- 0 + ?X = _ => transitivity X; [ring|] end. apply sum_ext. intros m Hm. cbn [p_left new_pair].
        unfold delta. destruct (Nat.eqb m n).
        -- match goal with |- _ = 1 * ?Y => transitivity Y; [|ring] end. apply sum_ext. intros n0 Hn0. reflexivity.
        -- rewrite sum_0. ring.
      * rewrite sum_delta_l by exact Hn. reflexivity.
    + rewrite sum_swap. apply sum_ext. intros a Ha. rewrite sum_swap. apply sum_ext. intros b Hb. apply sum_ext. intros m Hm.
      rewrite (QM_single A B t z w n a b m c d ca c' d cb (bond (S h)) (bond (S (S h)))) by assumption. reflexivity.
Qed.

Lemma QM_nil n : (n < 1)%nat -> QM [] [] [] 0 0 n 0 0 0 = 1.
Proof. intros Hn. assert (n = 0)%nat as -> by lia. unfold QM. cbn. unfold delta. cbn. rewrite kconj_1. ring. Qed.

Lemma ones_vten F : F 0%nat 0%nat = 1 -> forall (env : (nat -> nat -> K) -> list nat -> K), (env = lenv_of \/ env = renv_of) -> vten [1; 1; 1; 1]%nat ones1111 (env F).
Proof.
  intros HF env Henv. right. split; [reflexivity|]. split; [apply wf_mk|]. split; [reflexivity|].
  intros x Hx. unfold ones1111. rewrite get_mk by exact Hx. apply in_range_inv4 in Hx. destruct Hx as (i & j & k & l & -> & Hi & Hj & Hk & Hl).
  assert (i = 0 /\ j = 0 /\ k = 0 /\ l = 0)%nat as (-> & -> & -> & ->) by lia. destruct Henv as [-> | ->]; symmetry; exact HF.
Qed.

(** The constructor. *)
Lemma qinv_new b p s f : open_mps b -> open_mps p -> pdims b = odims O -> pdims p = idims O -> qform_new O b p (Z.of_nat s) = Ok f ->
  qinv f (firstn s b) (skipn (S s) b) (firstn s p) (skipn (S s) p).
Proof.
  intros (Hbn & Hbl) (Hpn & Hpl) Hbd Hpd. unfold qform_new.
  destruct (negb _) eqn:Eg; [discriminate|]. clear Eg.
  destruct (Z.ltb_spec (Z.of_nat s) 0); [lia|]. destruct (Z.leb_spec (Z.of_nat (length O)) (Z.of_nat s)); [discriminate|]. cbn [orb].
  rewrite Nat2Z.id. assert (Hs : (s < length O)%nat) by lia.
  set (N := length O) in *.
  assert (HbN : length b = N) by (rewrite <- (length_pdims b), Hbd; apply length_odims).
  assert (HpN : length p = N) by (rewrite <- (length_pdims p), Hpd; apply length_idims).
  assert (Hsb : forall k, (k < N)%nat -> dim (site b k) 1 = nth k (odims O) 0%nat).
  { intros k Hk. rewrite <- Hbd. unfold pdims, site. rewrite (nth_indep _ 0%nat (dim empty 1)) by (rewrite map_length; lia).
    rewrite (map_nth (fun A => dim A 1)). reflexivity. }
  assert (Hsp : forall k, (k < N)%nat -> dim (site p k) 1 = nth k (idims O) 0%nat).
  { intros k Hk. rewrite <- Hpd. unfold pdims, site. rewrite (nth_indep _ 0%nat (dim empty 1)) by (rewrite map_length; lia).
    rewrite (map_nth (fun A => dim A 1)). reflexivity. }
  set (f0 := mkQF (N - 1) N (make_matrix_database O) (make_pairs O)).
  assert (Hdb : forall k, (k <= N)%nat -> nth k (make_matrix_database O) [] = if Nat.eqb k 0 || Nat.eqb k N then [ones1111] else repeat empty (bond k)).
  { intros k Hk. unfold make_matrix_database. fold N. rewrite nth_map_seq by lia. destruct (Nat.eqb_spec k 0); [reflexivity|]. cbn [orb].
    destruct (Nat.eqb_spec k N); [reflexivity|]. rewrite (bond_site k) by (fold N; lia). reflexivity. }
  assert (Hf0 : qinv0 f0).
  { split; [reflexivity|]. split; [reflexivity|]. split; [cbn [f0 qf_matrix]; unfold make_matrix_database; rewrite map_length, seq_length; fold N; lia|].
    intros k Hk. cbn [f0 qf_matrix]. rewrite Hdb by exact Hk. destruct (Nat.eqb_spec k 0) as [->|]; [cbn; rewrite bond_0; reflexivity|]. cbn [orb].
    destruct (Nat.eqb_spec k N) as [->|]; [cbn; unfold N; rewrite bond_N; reflexivity|]. apply repeat_length. }
  assert (Hleft0 : forall f', qf_matrix f' = qf_matrix f0 -> forall n, (n < 1)%nat -> qf_left f' 0 n = ones1111).
  { intros f' Hf' n Hn. assert (n = 0)%nat as -> by lia. unfold qf_left. rewrite Hf'. cbn [f0 qf_matrix]. rewrite Hdb by lia. reflexivity. }
  (* propagate_left loop *)
  assert (H2 : forall n, (n <= N - 1 - s)%nat ->
    let f2 := fold_left (fun f k => qf_propagate_left f (site b k) (site p k)) (rev (seq (N - n) n)) f0 in
    qinv0 f2 /\ qf_here f2 = (N - 1 - n)%nat /\ (forall n, (n < 1)%nat -> qf_left f2 0 n = ones1111) /\
    qinv_right f2 (N - 1 - n) (skipn (N - n) b) (skipn (N - n) p)).
  { induction n as [|n IH]; intros Hn f2.
    - split; [exact Hf0|]. split; [cbn; lia|]. split; [apply (Hleft0 f0 eq_refl)|].
      intros k m la lb Hk Hm Hla Hlb HL HL'. assert (k = N) as -> by (fold N in Hk; lia).
      rewrite (skipn_all2 (skipn _ b)) in HL by (rewrite skipn_length; lia). rewrite (skipn_all2 (skipn _ p)) in HL' by (rewrite skipn_length; lia).
      cbn in HL, HL'. subst la lb. unfold f2. cbn [seq rev fold_left]. unfold N in Hm. rewrite bond_N in Hm. assert (m = 0)%nat as -> by lia.
      replace (qf_left f0 N 0) with ones1111.
      2:{ unfold qf_left. cbn [f0 qf_matrix]. rewrite Hdb by lia. rewrite Nat.eqb_refl, orb_true_r. reflexivity. }
      apply ones_vten; [|right; reflexivity]. unfold Rval. rewrite !skipn_all2; try (rewrite ?skipn_length; unfold N in *; lia). apply QM_nil. lia.
    - destruct (IH ltac:(lia)) as (J1 & J2 & J3 & J4). clear IH. unfold f2.
      replace (seq (N - S n) (S n)) with (N - S n :: seq (N - n) n)%nat by (cbn [seq]; do 2 f_equal; lia).
      cbn [rev]. rewrite fold_left_app. cbn [fold_left].
      set (f' := fold_left _ (rev (seq (N - n) n)) _) in *. clear f2.
      split; [apply qinv0_left; exact J1|]. split; [rewrite qhere_left; lia|]. split.
      + intros m Hm. rewrite q_after_left by lia. apply J3. exact Hm.
      + rewrite (skipn_nth (N - S n) b empty), (skipn_nth (N - S n) p empty) by lia.
        destruct (linked_skipn 1 b 1 (N - S n) Hbl) as (c & Hc & Hcp). rewrite (skipn_nth (N - S n) b empty) in Hc by lia.
        destruct (linked_skipn 1 p 1 (N - S n) Hpl) as (c' & Hc' & Hcp'). rewrite (skipn_nth (N - S n) p empty) in Hc' by lia.
        fold (site b (N - S n)) in *. fold (site p (N - S n)) in *.
        replace (S (N - S n)) with (N - n)%nat in * by lia.
        assert (EN : S (N - 1 - S n) = (N - 1 - n)%nat) by lia.
        assert (EN2 : S (N - 1 - S n) = (N - S n)%nat) by lia.
        apply (qinv_right_left f' (N - 1 - S n)%nat _ _ _ _ c c'); auto; try lia.
        * rewrite !skipn_length. lia.
        * rewrite skipn_length. unfold N in *. lia.
        * rewrite EN. exact J4.
        * rewrite EN2. apply Hsb. lia.
        * rewrite EN2. apply Hsp. lia. }
  destruct (H2 (N - 1 - s)%nat ltac:(lia)) as (I1 & I2 & I3 & I4). cbv zeta in *. clear H2.
  replace (N - (N - 1 - s))%nat with (s + 1)%nat in * by lia.
  replace (N - 1 - (N - 1 - s))%nat with s in * by lia.
  set (f1 := fold_left _ (rev (seq (s + 1) (N - 1 - s))) f0) in *.
  set (g0 := mkQF 0 N (qf_matrix f1) (qf_pairs f1)) in *.
  assert (Hg0 : qinv0 g0) by (destruct I1 as (K1 & K2 & K3 & K4); repeat split; auto).
  assert (H1 : forall n, (n <= s)%nat -> let g := fold_left (fun f k => qf_propagate_right f (site b k) (site p k)) (seq 0 n) g0 in
    qinv0 g /\ qf_here g = n /\ qinv_left g (firstn n b) (firstn n p) /\
    forall k m, (s < k)%nat -> qf_left g k m = qf_left f1 k m).
  { induction n as [|n IH]; intros Hn g.
    - split; [exact Hg0|]. split; [reflexivity|]. split; [|reflexivity].
      intros k m ra rb Hk Hm Hra Hrb. cbn in Hk. assert (k = 0%nat) as -> by lia. cbn in Hra, Hrb. subst ra rb.
      unfold g. cbn [seq fold_left]. change (qf_left g0 0 m) with (qf_left f1 0 m). rewrite bond_0 in Hm. rewrite I3 by exact Hm.
      apply ones_vten; [|left; reflexivity]. unfold Lval. cbn [firstn]. assert (m = 0)%nat as -> by lia. apply QM_nil. lia.
    - destruct (IH ltac:(lia)) as (K1 & K2 & K3 & K4). clear IH. unfold g. rewrite seq_S, fold_left_app. cbn [fold_left Nat.add].
      set (g' := fold_left _ (seq 0 n) g0) in *. clear g.
      assert (Hln : length (firstn n b) = n) by (rewrite firstn_length; lia).
      assert (Hln' : length (firstn n p) = n) by (rewrite firstn_length; lia).
      split; [apply qinv0_right; exact K1|]. split; [rewrite qhere_right; [lia|exact K1|unfold N in *; lia]|]. split.
      + rewrite (firstn_S_nth n b empty), (firstn_S_nth n p empty) by lia.
        destruct (linked_firstn 1 b 1 (S n) Hbl) as (c & Hc). rewrite (firstn_S_nth n b empty) in Hc by lia.
        destruct (linked_firstn 1 p 1 (S n) Hpl) as (c' & Hc'). rewrite (firstn_S_nth n p empty) in Hc' by lia.
        apply (qinv_left_right g' _ _ _ _ c c'); auto; rewrite ?Hln, ?Hln'; try (unfold N in *; lia); [apply Hsb; lia|apply Hsp; lia].
      + intros k m Hk. rewrite q_after_right; [apply K4; exact Hk|exact K1|unfold N in *; lia|lia]. }
  destruct (H1 s ltac:(lia)) as (K1 & K2 & K3 & K4). cbv zeta in *.
  intros E. apply (f_equal (fun r => match r with Ok x => x | Abort => f end)) in E. cbn beta iota in E. rewrite <- E.
  assert (Hln : length (firstn s b) = s) by (rewrite firstn_length; lia).
  assert (Hln' : length (firstn s p) = s) by (rewrite firstn_length; lia).
  split; [exact K1|]. rewrite Hln, Hln'. split; [exact K2|]. split; [reflexivity|]. split; [rewrite !skipn_length; lia|].
  split; [rewrite skipn_length; unfold N in *; lia|]. split; [exact K3|].
  intros k m la lb Hk Hm Hla Hlb HL HL'. rewrite K4 by lia. replace (S s) with (s + 1)%nat in * by lia.
  apply I4; try assumption; replace (s + 1)%nat with (S s) by lia; replace (s + 1)%nat with (S s) in HL, HL' by lia; assumption.
Qed.
End Facts.
