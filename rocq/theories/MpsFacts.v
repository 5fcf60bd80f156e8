(** Proofs about the MPS model: amplitudes, environments, expectation values. *)
From Coq Require Import Bool List Arith ZArith Lia Ring.
From Verif Require Import Scalar ScalarFacts Tensor TensorFacts Spec MpsModel.
Import ListNotations.
Local Open Scope K_scope.

Section Facts.
Context {SC : Scalar}.
Add Ring Kring : k_ring.

(** ** Bonds *)
Lemma linked_app l p q r :
  linked l (p ++ q) r <-> exists m, linked l p m /\ linked m q r.
Proof.
  revert l. induction p as [|A p IH]; intros l; cbn.
  - split; [intros H; exists l; auto|intros (m & -> & H); exact H].
  - split.
    + intros (d & c & H1 & H2 & H3 & H4 & H5). apply IH in H5. destruct H5 as (m & H5 & H6).
      exists m. split; [exists d, c; auto|exact H6].
    + intros (m & (d & c & H1 & H2 & H3 & H4 & H5) & H6). exists d, c.
      repeat split; auto. apply IH. eauto.
Qed.

Lemma linked_pos l p r : linked l p r -> (0 < l)%nat -> (0 < r)%nat.
Proof.
  revert l. induction p as [|A p IH]; intros l; cbn.
  - intros ->. auto.
  - intros (d & c & H1 & H2 & H3 & H4 & H5) _. eapply IH; eauto.
Qed.

Lemma linked_left_bond l p r : p <> [] -> linked l p r -> left_bond p = l.
Proof.
  destruct p as [|A p]; [congruence|]. intros _ (d & c & H1 & _). cbn. unfold dim. rewrite H1. reflexivity.
Qed.

(** ** Chains of matrices *)
Lemma chain_app l p m q r is js a b :
  linked l p m -> linked m q r -> length is = length p -> (a < l)%nat ->
  chain (p ++ q) (is ++ js) a b = sum m (fun c => chain p is a c * chain q js c b).
Proof.
  revert l is a. induction p as [|A p IH]; intros l is a Hp Hq Hl Ha; cbn in Hp.
  - subst m. destruct is; [|discriminate]. cbn [app chain].
    rewrite sum_delta_l' by assumption. reflexivity.
  - destruct Hp as (d & c & H1 & H2 & H3 & H4 & H5).
    destruct is as [|i is]; [discriminate|]. cbn [app chain].
    assert (Hc : dim A 2 = c) by (unfold dim; rewrite H1; reflexivity). rewrite Hc.
    transitivity (sum c (fun c0 => sum m (fun e => get A [a; i; c0] * (chain p is c0 e * chain q js e b)))).
    + apply sum_ext. intros e He. rewrite (IH c is e H5 Hq) by (auto; cbn in Hl; lia).
      apply sum_mul_l.
    + rewrite sum_swap. apply sum_ext. intros e He. rewrite sum_mul_r. apply sum_ext.
      intros x Hx. ring.
Qed.

Lemma chain_snoc l p m A d c is i a b :
  linked l p m -> dims A = [m; d; c] -> length is = length p -> (a < l)%nat -> (b < c)%nat ->
  chain (p ++ [A]) (is ++ [i]) a b = sum m (fun e => chain p is a e * get A [e; i; b]).
Proof.
  revert l is a. induction p as [|B p IH]; intros l is a Hp HA Hl Ha Hb; cbn in Hp.
  - subst m. destruct is; [|discriminate]. cbn [app chain].
    rewrite sum_delta_l' by assumption.
    unfold dim; rewrite HA; cbn [nth].
    rewrite sum_delta_r by assumption. reflexivity.
  - destruct Hp as (d' & c' & H1 & H2 & H3 & H4 & H5).
    destruct is as [|j is]; [discriminate|]. cbn [app chain].
    assert (Hc : dim B 2 = c') by (unfold dim; rewrite H1; reflexivity). rewrite Hc.
    transitivity (sum c' (fun c0 => sum m (fun e => get B [a; j; c0] * (chain p is c0 e * get A [e;i;b])))).
    + apply sum_ext. intros e He. rewrite (IH c' is e H5) by (auto; cbn in Hl; lia).
      apply sum_mul_l.
    + rewrite sum_swap. apply sum_ext. intros e He. rewrite sum_mul_r. apply sum_ext.
      intros x Hx. ring.
Qed.

Lemma pdims_app p q : pdims (p ++ q) = pdims p ++ pdims q.
Proof. apply map_app. Qed.

Lemma length_pdims p : length (pdims p) = length p.
Proof. apply map_length. Qed.

(** ** mps_to_vector *)
Lemma offset_snoc ds is d i : in_range ds is ->
  offset (ds ++ [d]) (is ++ [i]) = (offset ds is + nprod ds * i)%nat.
Proof.
  intros H. induction H as [|d' i' ds is Hi H IH]; cbn; [lia|].
  rewrite IH. fold (nprod ds). ring.
Qed.

Lemma skipn_cons_inv {A} k (l : list A) x l' : skipn k l = x :: l' -> skipn (S k) l = l'.
Proof.
  revert l. induction k as [|k IH]; intros l H.
  - cbn in H. subst l. reflexivity.
  - destruct l as [|y l]; [discriminate|]. cbn in H. apply IH in H. exact H.
Qed.

(** List recursion equal to the loops over indices *)
Lemma fold_left_seq_nth {ST A} (F : ST -> A -> ST) (dflt : A) (l : list A) (s0 : ST) n k :
  (k + n <= length l)%nat ->
  fold_left (fun s i => F s (nth i l dflt)) (seq k n) s0 =
  fold_left F (firstn n (skipn k l)) s0.
Proof.
  revert k s0. induction n as [|n IH]; intros k s0 H; cbn; [reflexivity|].
  destruct (skipn k l) as [|x l'] eqn:E.
  - exfalso. assert (length (skipn k l) = 0%nat) by (rewrite E; reflexivity).
    rewrite skipn_length in H0. lia.
  - assert (Hx : nth k l dflt = x).
    { rewrite <- (firstn_skipn k l) at 1. rewrite E.
      rewrite app_nth2; rewrite firstn_length_le by lia; [|lia].
      rewrite Nat.sub_diag. reflexivity. }
    cbn. rewrite Hx. rewrite IH by lia.
    replace (skipn (S k) l) with l'; [reflexivity|].
    symmetry. eapply skipn_cons_inv; eauto.
Qed.

Definition vec_inv (l : nat) (p : mps) (r : nat) (T : tensor) : Prop :=
  wf T /\ dims T = [l; nprod (pdims p); r] /\
  forall a c is, (a < l)%nat -> (c < r)%nat -> in_range (pdims p) is ->
    get T [a; offset (pdims p) is; c] = chain p is a c.

Lemma to_vector_step_inv l p m A d c T :
  linked l p m -> dims A = [m; d; c] -> wf A -> (0 < l)%nat ->
  vec_inv l p m T -> vec_inv l (p ++ [A]) c (to_vector_step l T A).
Proof.
  intros Hp HA HwA Hl0 (Hw & HT & Hg).
  assert (Hpd : pdims (p ++ [A]) = pdims p ++ [d])
    by (rewrite pdims_app; cbn; unfold dim; rewrite HA; reflexivity).
  set (n := nprod (pdims p)) in *.
  assert (Hn : nprod (pdims (p ++ [A])) = (n * d)%nat)
    by (rewrite Hpd, nprod_app; cbn; fold n; lia).
  assert (HF : dims (fold T 2 A 0) = [l; n; d; c])
    by (unfold fold, rank; rewrite HT, HA; reflexivity).
  assert (HS : to_vector_step l T A = reshape (fold T 2 A 0) [l; (n * d)%nat; c]).
  { unfold to_vector_step. unfold dim. rewrite HF. reflexivity. }
  rewrite HS. split; [|split].
  - apply wf_reshape; [apply wf_mk|]. rewrite HF. cbn. lia.
  - rewrite Hn. reflexivity.
  - intros a c' is Ha Hc His. rewrite Hpd in His |- *.
    assert (exists is0 i, is = is0 ++ [i] /\ in_range (pdims p) is0 /\ (i < d)%nat) as
      (is0 & i & -> & His0 & Hi).
    { unfold in_range in His. apply Forall2_app_inv_l in His.
      destruct His as (l1 & l2 & H1 & H2 & ->).
      inversion H2 as [|? x ? ? Hx Hnil]; subst. inversion Hnil; subst. eauto. }
    rewrite offset_snoc by assumption. fold n.
    rewrite (get_reshape _ _ _ [a; offset (pdims p) is0; i; c']).
    2:{ rewrite HF. cbn. ring. }
    rewrite (chain_snoc l p m A d c) by (auto; rewrite <- (length_pdims p); apply in_range_length; exact His0).
    unfold fold at 1, rank, dim. rewrite HT, HA. cbn [remove_nth app nth length].
    pose proof (offset_lt _ _ His0) as Hoff. fold n in Hoff.
    rewrite get_mk by (apply in_range_4; assumption).
    cbn [firstn skipn insert_nth]. cbn -[sum get]. apply sum_ext. intros e He.
    rewrite Hg by assumption. reflexivity.
Qed.

Lemma to_vector_fold_inv l p m q r T :
  linked l p m -> linked m q r -> (0 < l)%nat -> vec_inv l p m T ->
  vec_inv l (p ++ q) r (fold_left (to_vector_step l) q T).
Proof.
  revert p m T. induction q as [|A q IH]; intros p m T Hp Hq Hl HT; cbn in Hq.
  - subst m. rewrite app_nil_r. exact HT.
  - destruct Hq as (d & c & H1 & H2 & H3 & H4 & H5).
    replace (p ++ A :: q) with ((p ++ [A]) ++ q) by (rewrite <- app_assoc; reflexivity).
    apply (IH (p ++ [A]) c).
    + apply linked_app. exists m. split; [exact Hp|]. cbn. exists d, c. auto.
    + exact H5.
    + exact Hl.
    + eapply to_vector_step_inv; eauto.
Qed.

Lemma vec_inv_first l A d c : dims A = [l; d; c] -> wf A -> vec_inv l [A] c A.
Proof.
  intros HA Hw. split; [exact Hw|]. 
  assert (Hd : pdims [A] = [d]) by (cbn; unfold dim; rewrite HA; reflexivity).
  rewrite Hd. split.
  - rewrite HA. cbn. rewrite Nat.mul_1_r. reflexivity.
  - intros a c' is Ha Hc His. apply in_range_cons_inv in His.
    destruct His as (i & is' & -> & Hi & His). apply in_range_nil_inv in His. subst is'.
    cbn [offset chain]. rewrite Nat.mul_0_r, Nat.add_0_r.
    unfold dim. rewrite HA. cbn [nth]. rewrite sum_delta_r by assumption. reflexivity.
Qed.

Lemma mps_to_vector_correct psi : wf_mps psi ->
  exists v, mps_to_vector psi = Ok v /\ wf v /\ dims v = [nprod (pdims psi)] /\
    forall is, in_range (pdims psi) is -> get v [offset (pdims psi) is] = amp psi is.
Proof.
  intros (Hne & D & HD & Hl).
  destruct psi as [|A psi]; [congruence|]. clear Hne.
  destruct Hl as (d & c & H1 & H2 & H3 & H4 & H5).
  unfold mps_to_vector. cbn [length]. eexists. split; [reflexivity|].
  unfold site. change (nth 0 (A :: psi) empty) with A.
  rewrite fold_left_seq_nth with (F := to_vector_step (dim A 0)) by (cbn; lia).
  cbn [skipn]. replace (S (length psi) - 1)%nat with (length psi) by lia. rewrite firstn_all.
  assert (HD0 : dim A 0 = D) by (unfold dim; rewrite H1; reflexivity).
  rewrite HD0.
  pose proof (to_vector_fold_inv D [A] c psi D A) as Hinv.
  destruct Hinv as (Hw & Hdim & Hg).
  { cbn. exists d, c. auto. }
  { exact H5. } { exact HD. } { eapply vec_inv_first; eauto. }
  set (T := fold_left (to_vector_step D) psi A) in *.
  cbn [app] in Hdim, Hg.
  split; [apply wf_mk|]. unfold trace_ends, dim. rewrite Hdim. cbn [tl removelast nth].
  split; [reflexivity|].
  intros is His. rewrite get_mk by (apply in_range_1; apply offset_lt; exact His).
  unfold amp, left_bond. rewrite HD0. apply sum_ext. intros a Ha.
  cbn [app]. apply Hg; assumption.
Qed.

End Facts.
