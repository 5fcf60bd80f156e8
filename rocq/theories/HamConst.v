(** Proofs about histories of ConstantHamiltonian (C39). *)
From Coq Require Import Bool List Arith ZArith Lia Ring Setoid.
From Verif Require Import Scalar ScalarFacts Tensor TensorFacts Spec MpsModel MpsFacts EnvFacts ExpectedFacts
  MpsProps MpoSpec MpoModel HamSpec HamModel HamFacts.
Import ListNotations.
Local Open Scope K_scope.

Section Const.
Context {SC : Scalar}.
Add Ring Kring : k_ring.

(** Elements of the sum of products *)
Definition terms_elem (l : list (tensor * tensor)) (i1 i2 j1 j2 : nat) : K :=
  fold_right (fun p x => mat (fst p) i1 j1 * mat (snd p) i2 j2 + x) 0 l.

Lemma is_matrix_kron2 A B d e : is_matrix A d d -> is_matrix B e e -> is_matrix (kron2 A B) (d * e) (d * e).
Proof.
  intros (A1 & A2) (B1 & B2). split; [|apply wf_mk]. unfold kron2. rewrite (dims_kron B A e e d d) by assumption.
  rewrite (Nat.mul_comm e d). reflexivity.
Qed.

Lemma get_kron2 A B d e i1 i2 j1 j2 : is_matrix A d d -> is_matrix B e e ->
  (i1 < d)%nat -> (i2 < e)%nat -> (j1 < d)%nat -> (j2 < e)%nat ->
  get (kron2 A B) [i1 + d * i2; j1 + d * j2]%nat = mat A i1 j1 * mat B i2 j2.
Proof.
  intros (A1 & _) (B1 & _) H1 H2 H3 H4. unfold kron2. rewrite (get_kron B A e e d d) by (assumption || nia).
  unfold mat. ring.
Qed.

Lemma is_matrix_tadd A B m n : is_matrix A m n -> is_matrix B m n -> is_matrix (tadd A B) m n.
Proof. intros (A1 & A2) (B1 & B2). split; [exact A1|]. apply wf_tadd; congruence. Qed.

Lemma fold_tadd d e l X : is_matrix X (d * e) (d * e) -> terms_ok d e l ->
  let Y := fold_left (fun H p => tadd H (kron2 (fst p) (snd p))) l X in
  is_matrix Y (d * e) (d * e) /\
  forall i1 i2 j1 j2, (i1 < d)%nat -> (i2 < e)%nat -> (j1 < d)%nat -> (j2 < e)%nat ->
    get Y [i1 + d * i2; j1 + d * j2]%nat = get X [i1 + d * i2; j1 + d * j2]%nat + terms_elem l i1 i2 j1 j2.
Proof.
  revert X. induction l as [|p l IH]; intros X HX HT; cbn [fold_left terms_elem fold_right].
  - split; [exact HX|]. intros. ring.
  - assert (Hp := Forall_inv HT). assert (Hl := Forall_inv_tail HT). destruct Hp as (P1 & P2).
    destruct (IH (tadd X (kron2 (fst p) (snd p)))) as (Y1 & Y2).
    + apply is_matrix_tadd; [exact HX|]. apply is_matrix_kron2; assumption.
    + exact Hl.
    + split; [exact Y1|]. intros i1 i2 j1 j2 H1 H2 H3 H4. rewrite Y2 by assumption.
      pose proof (is_matrix_kron2 _ _ _ _ P1 P2) as (K1 & K2). destruct HX as (X1 & X2).
      rewrite get_tadd; [|exact X2|exact K2|congruence|rewrite X1; apply in_range_2; nia].
      rewrite (get_kron2 _ _ d e) by assumption. unfold terms_elem. ring.
Qed.

Lemma ch_compute_correct d e l dd : terms_ok d e l -> l <> [] -> (0 < d)%nat -> (0 < e)%nat ->
  is_matrix (ch_compute (map fst l) (map snd l) dd) (d * e) (d * e) /\
  forall i1 i2 j1 j2, (i1 < d)%nat -> (i2 < e)%nat -> (j1 < d)%nat -> (j2 < e)%nat ->
    get (ch_compute (map fst l) (map snd l) dd) [i1 + d * i2; j1 + d * j2]%nat = terms_elem l i1 i2 j1 j2.
Proof.
  intros HT Hne Hd He. unfold ch_compute.
  replace (combine (map fst l) (map snd l)) with l.
  2:{ clear. induction l as [|[a b] l IH]; [reflexivity|]. cbn. congruence. }
  destruct l as [|p l]; [congruence|].
  assert (Hp := Forall_inv HT). assert (Hl := Forall_inv_tail HT). destruct Hp as (P1 & P2).
  destruct (fold_tadd d e l (kron2 (fst p) (snd p)) (is_matrix_kron2 _ _ _ _ P1 P2) Hl) as (Y1 & Y2).
  cbv zeta in *. rewrite (is_matrix_not_empty _ _ _ Y1) by nia.
  split; [exact Y1|]. intros i1 i2 j1 j2 H1 H2 H3 H4. rewrite Y2, (get_kron2 _ _ d e) by assumption. reflexivity.
Qed.

(** What a ConstantHamiltonian holds after the calls [l] *)
Record ch_inv (N : nat) (periodic : bool) (ds : nat -> nat) (l : list ham_call) (c : constH) : Prop := {
  ci_periodic : ch_periodic c = periodic;
  ci_l12 : length (ch_H12 c) = N;
  ci_ll : length (ch_left c) = N;
  ci_lr : length (ch_right c) = N;
  ci_l1 : length (ch_H1 c) = N;
  ci_ld : length (ch_dims c) = N;
  ci_local : forall k, (k < N)%nat -> nth k (ch_H1 c) empty = hist_local k l;
  ci_left : forall k, (k < N)%nat -> nth k (ch_left c) [] = map fst (hist_terms k l);
  ci_right : forall k, (k < N)%nat -> nth k (ch_right c) [] = map snd (hist_terms k l);
  ci_terms : forall k, terms_ok (ds k) (ds (S k)) (hist_terms k l);
  ci_last : forall k, (N <= S k)%nat -> hist_terms k l = [];
  ci_H12 : forall k, (k < N)%nat -> hist_terms k l = [] -> nth k (ch_H12 c) empty = empty;
  ci_H12' : forall k, (k < N)%nat -> hist_terms k l <> [] -> exists dd,
     nth k (ch_H12 c) empty = ch_compute (map fst (hist_terms k l)) (map snd (hist_terms k l)) dd;
  ci_dim : forall k, (k < N)%nat -> nth k (ch_dims c) 0%nat = if existsb (touches k) l then ds k else 0%nat
}.

Lemma hist_local_app k l x : hist_local k (l ++ [x]) =
  match x with SetLocal k' H => if Nat.eqb k' k then H else hist_local k l | _ => hist_local k l end.
Proof. unfold hist_local. rewrite fold_left_app. reflexivity. Qed.

Lemma hist_terms_app k l x : hist_terms k (l ++ [x]) =
  match x with
    | SetInt k' A B => if Nat.eqb k' k then [(A, B)] else hist_terms k l
    | AddInt k' A B => if Nat.eqb k' k then hist_terms k l ++ [(A, B)] else hist_terms k l
    | _ => hist_terms k l end.
Proof. unfold hist_terms. rewrite fold_left_app. reflexivity. Qed.

Lemma existsb_app1 {A} (f : A -> bool) l x : existsb f (l ++ [x]) = existsb f l || f x.
Proof. rewrite existsb_app. cbn. rewrite orb_false_r. reflexivity. Qed.

Lemma nth_repeat_all {A} (x : A) n k : nth k (repeat x n) x = x.
Proof. revert k. induction n; intros [|k]; cbn; auto. Qed.

Lemma ch_new_inv N p ds : ch_inv N p ds [] (ch_new N p).
Proof.
  constructor; cbn [ch_new ch_periodic ch_H12 ch_left ch_right ch_H1 ch_dims]; try apply repeat_length; try reflexivity;
  intros k; try intros Hk; try (apply nth_repeat_all); try constructor; try (intros _; apply nth_repeat_all).
  intros Hn. exfalso. apply Hn. reflexivity.
Qed.

Lemma dim_matrix t m n : is_matrix t m n -> dim t 0 = m.
Proof. intros (H & _). unfold dim. rewrite H. reflexivity. Qed.

(** add_interaction in a state whose stored lists are [old] on bond k and those of [l] elsewhere *)
Lemma ch_add_inv N p ds l l' c k A B old :
  (S k < N)%nat -> is_matrix A (ds k) (ds k) -> is_matrix B (ds (S k)) (ds (S k)) ->
  ch_periodic c = p -> length (ch_H12 c) = N -> length (ch_left c) = N -> length (ch_right c) = N ->
  length (ch_H1 c) = N -> length (ch_dims c) = N ->
  (forall m, (m < N)%nat -> nth m (ch_H1 c) empty = hist_local m l') ->
  nth k (ch_left c) [] = map fst old -> nth k (ch_right c) [] = map snd old -> terms_ok (ds k) (ds (S k)) old ->
  (forall m, m <> k -> hist_terms m l' = hist_terms m l) -> hist_terms k l' = old ++ [(A, B)] ->
  (forall m, (m < N)%nat -> m <> k -> nth m (ch_left c) [] = map fst (hist_terms m l)) ->
  (forall m, (m < N)%nat -> m <> k -> nth m (ch_right c) [] = map snd (hist_terms m l)) ->
  (forall m, m <> k -> terms_ok (ds m) (ds (S m)) (hist_terms m l)) ->
  (forall m, (N <= S m)%nat -> m <> k -> hist_terms m l = []) ->
  (forall m, (m < N)%nat -> m <> k -> hist_terms m l = [] -> nth m (ch_H12 c) empty = empty) ->
  (forall m, (m < N)%nat -> m <> k -> hist_terms m l <> [] -> exists dd,
     nth m (ch_H12 c) empty = ch_compute (map fst (hist_terms m l)) (map snd (hist_terms m l)) dd) ->
  (forall m, (m < N)%nat -> nth m (ch_dims c) 0%nat = if existsb (touches m) l then ds m else 0%nat) ->
  (forall m, existsb (touches m) l' = existsb (touches m) l || (Nat.eqb k m || Nat.eqb (S k) m)) ->
  exists c', ch_add_interaction c k A B = Ok c' /\ ch_inv N p ds l' c'.
Proof.
  intros Hk HA HB P1 L1 L2 L3 L4 L5 Hloc EL ER HO HT HTk H1 H2 H3 H4 H5 H6 H7 H8.
  unfold ch_add_interaction. rewrite L1. destruct (Nat.ltb_spec (k + 1) N); [|lia].
  eexists. split; [reflexivity|].
  constructor; cbn [ch_periodic ch_H12 ch_left ch_right ch_H1 ch_dims]; rewrite ?length_replace_nth; try assumption.
  - intros m Hm. destruct (Nat.eq_dec m k) as [->|Hne].
    + rewrite nth_replace_nth_eq by lia. rewrite EL, HTk, map_app. reflexivity.
    + rewrite nth_replace_nth_neq by exact Hne. rewrite HT by exact Hne. apply H1; assumption.
  - intros m Hm. destruct (Nat.eq_dec m k) as [->|Hne].
    + rewrite nth_replace_nth_eq by lia. rewrite ER, HTk, map_app. reflexivity.
    + rewrite nth_replace_nth_neq by exact Hne. rewrite HT by exact Hne. apply H2; assumption.
  - intros m. destruct (Nat.eq_dec m k) as [->|Hne].
    + rewrite HTk. apply Forall_app. split; [exact HO|]. constructor; [split; assumption|constructor].
    + rewrite HT by exact Hne. apply H3. exact Hne.
  - intros m Hm. rewrite HT by lia. apply H4; lia.
  - intros m Hm. destruct (Nat.eq_dec m k) as [->|Hne].
    + rewrite HTk. intros E. destruct old; discriminate.
    + rewrite nth_replace_nth_neq by exact Hne. rewrite HT by exact Hne. apply H5; assumption.
  - intros m Hm. destruct (Nat.eq_dec m k) as [->|Hne].
    + intros _. rewrite nth_replace_nth_eq by lia. rewrite !nth_replace_nth_eq by lia. rewrite HTk, EL, ER, !map_app.
      eexists. reflexivity.
    + rewrite nth_replace_nth_neq by exact Hne. rewrite HT by exact Hne. apply H6; assumption.
  - intros m Hm. rewrite H8. rewrite (Nat.add_1_r k).
    destruct (Nat.eqb_spec (S k) m) as [<-|N1].
    + rewrite nth_replace_nth_eq by (rewrite length_replace_nth; lia). rewrite !orb_true_r. apply (dim_matrix _ _ _ HB).
    + rewrite nth_replace_nth_neq by lia. destruct (Nat.eqb_spec k m) as [<-|N2].
      * rewrite nth_replace_nth_eq by lia. rewrite orb_true_r. apply (dim_matrix _ _ _ HA).
      * rewrite nth_replace_nth_neq by lia. rewrite !orb_false_r. apply H7. exact Hm.
Qed.

Lemma ch_exec_inv N p ds l c x : ch_inv N p ds l c -> call_ok N ds x ->
  exists c', ch_exec c x = Ok c' /\ ch_inv N p ds (l ++ [x]) c'.
Proof.
  intros HI Hx. destruct x as [k H1|k A B|k A B]; cbn [call_ok ch_exec] in *.
  - destruct Hx as (Hk & HM). unfold ch_set_local_term. rewrite (ci_l1 _ _ _ _ _ HI).
    destruct (Nat.ltb_spec k N); [|lia]. eexists. split; [reflexivity|].
    constructor; cbn [ch_periodic ch_H12 ch_left ch_right ch_H1 ch_dims]; rewrite ?length_replace_nth; try apply HI;
    intros m; rewrite ?hist_local_app, ?hist_terms_app, ?existsb_app1; try apply (ci_left _ _ _ _ _ HI); try apply (ci_right _ _ _ _ _ HI);
      try apply (ci_terms _ _ _ _ _ HI); try apply (ci_last _ _ _ _ _ HI); try apply (ci_H12 _ _ _ _ _ HI); try apply (ci_H12' _ _ _ _ _ HI).
    + intros Hm. destruct (Nat.eqb_spec k m) as [<-|Hne].
      * apply nth_replace_nth_eq. rewrite (ci_l1 _ _ _ _ _ HI). exact Hk.
      * rewrite nth_replace_nth_neq by lia. apply (ci_local _ _ _ _ _ HI). exact Hm.
    + intros Hm. cbn [touches]. destruct (Nat.eqb_spec k m) as [<-|Hne].
      * rewrite orb_true_r. rewrite nth_replace_nth_eq by (rewrite (ci_ld _ _ _ _ _ HI); exact Hk). apply (dim_matrix _ _ _ HM).
      * rewrite orb_false_r. rewrite nth_replace_nth_neq by lia. apply (ci_dim _ _ _ _ _ HI). exact Hm.
  - destruct Hx as (Hk & HA & HB). unfold ch_set_interaction. rewrite (ci_l12 _ _ _ _ _ HI).
    destruct (Nat.ltb_spec k N); [|lia].
    apply (ch_add_inv N p ds l (l ++ [SetInt k A B]) _ k A B []);
      cbn [ch_periodic ch_H12 ch_left ch_right ch_H1 ch_dims]; rewrite ?length_replace_nth;
      try (apply HI; fail); try assumption; try constructor.
    + intros m Hm. rewrite hist_local_app. apply (ci_local _ _ _ _ _ HI). exact Hm.
    + apply nth_replace_nth_eq. rewrite (ci_ll _ _ _ _ _ HI). exact H.
    + apply nth_replace_nth_eq. rewrite (ci_lr _ _ _ _ _ HI). exact H.
    + intros m Hm. rewrite hist_terms_app. destruct (Nat.eqb_spec k m); [congruence|reflexivity].
    + rewrite hist_terms_app, Nat.eqb_refl. reflexivity.
    + intros m Hm Hne. rewrite nth_replace_nth_neq by exact Hne. apply (ci_left _ _ _ _ _ HI). exact Hm.
    + intros m Hm Hne. rewrite nth_replace_nth_neq by exact Hne. apply (ci_right _ _ _ _ _ HI). exact Hm.
    + intros m Hm. apply (ci_terms _ _ _ _ _ HI).
    + intros m Hm _. apply (ci_last _ _ _ _ _ HI). exact Hm.
    + intros m Hm _. apply (ci_H12 _ _ _ _ _ HI). exact Hm.
    + intros m Hm _. apply (ci_H12' _ _ _ _ _ HI). exact Hm.
    + intros m. rewrite existsb_app1. reflexivity.
  - destruct Hx as (Hk & HA & HB).
    apply (ch_add_inv N p ds l (l ++ [AddInt k A B]) _ k A B (hist_terms k l));
      try (apply HI; fail); try assumption.
    + intros m Hm. rewrite hist_local_app. apply (ci_local _ _ _ _ _ HI). exact Hm.
    + apply (ci_left _ _ _ _ _ HI). lia.
    + apply (ci_right _ _ _ _ _ HI). lia.
    + intros m Hm. rewrite hist_terms_app. destruct (Nat.eqb_spec k m); [congruence|reflexivity].
    + rewrite hist_terms_app, Nat.eqb_refl. reflexivity.
    + intros m Hm _. apply (ci_left _ _ _ _ _ HI). exact Hm.
    + intros m Hm _. apply (ci_right _ _ _ _ _ HI). exact Hm.
    + intros m Hm. apply (ci_terms _ _ _ _ _ HI).
    + intros m Hm _. apply (ci_last _ _ _ _ _ HI). exact Hm.
    + intros m Hm _. apply (ci_H12 _ _ _ _ _ HI). exact Hm.
    + intros m Hm _. apply (ci_H12' _ _ _ _ _ HI). exact Hm.
    + intros m. rewrite existsb_app1. reflexivity.
Qed.

Lemma ch_run_inv N p ds l : Forall (call_ok N ds) l -> exists c, ch_run N p l = Ok c /\ ch_inv N p ds l c.
Proof.
  unfold ch_run. induction l as [|x l IH] using rev_ind; intros Hl.
  - exists (ch_new N p). split; [reflexivity|]. apply ch_new_inv.
  - apply Forall_app in Hl. destruct Hl as (Hl & Hx). destruct (IH Hl) as (c & E & HI).
    destruct (ch_exec_inv N p ds l c x HI (Forall_inv Hx)) as (c' & E' & HI').
    exists c'. split; [|exact HI']. rewrite fold_left_app, E. exact E'.
Qed.

Lemma ch_view_terms N p ds l c k : ch_inv N p ds l c -> (k < N)%nat -> h_terms (ch_view c) k = hist_terms k l.
Proof.
  intros HI Hk. unfold h_terms. cbn [ch_view h_left h_right h_depth].
  rewrite (ci_left _ _ _ _ _ HI k Hk), (ci_right _ _ _ _ _ HI k Hk), map_length.
  apply (nth_ext _ _ (empty, empty) (empty, empty)); [rewrite map_length, seq_length; reflexivity|].
  intros j Hj. rewrite map_length, seq_length in Hj. rewrite nth_map_seq by exact Hj.
  rewrite (map_nth fst (hist_terms k l) (empty, empty) j : nth j (map fst (hist_terms k l)) empty = _).
  rewrite (map_nth snd (hist_terms k l) (empty, empty) j : nth j (map snd (hist_terms k l)) empty = _).
  destruct (nth j (hist_terms k l) (empty, empty)); reflexivity.
Qed.

Lemma ch_correct N p ds l : Forall (call_ok N ds) l -> (forall k, (0 < ds k)%nat) ->
  exists c, ch_run N p l = Ok c /\ h_size (ch_view c) = N /\ h_periodic (ch_view c) = p /\
    forall k, (k < N)%nat ->
      h_local (ch_view c) k = hist_local k l /\ h_terms (ch_view c) k = hist_terms k l /\
      h_dim (ch_view c) k = (if existsb (touches k) l then ds k else 0%nat) /\
      ((S k < N)%nat -> existsb (touches k) l = true -> existsb (touches (S k)) l = true ->
       is_matrix (h_interaction (ch_view c) k) (ds k * ds (S k)) (ds k * ds (S k)) /\
       forall i1 i2 j1 j2, (i1 < ds k)%nat -> (i2 < ds (S k))%nat -> (j1 < ds k)%nat -> (j2 < ds (S k))%nat ->
         get (h_interaction (ch_view c) k) [i1 + ds k * i2; j1 + ds k * j2]%nat =
         terms_elem (hist_terms k l) i1 i2 j1 j2).
Proof.
  intros Hl Hp. destruct (ch_run_inv N p ds l Hl) as (c & E & HI). exists c. split; [exact E|].
  split; [apply (ci_l12 _ _ _ _ _ HI)|]. split; [apply (ci_periodic _ _ _ _ _ HI)|].
  intros k Hk. split; [apply (ci_local _ _ _ _ _ HI); exact Hk|]. split; [apply (ch_view_terms N p ds); assumption|].
  split; [apply (ci_dim _ _ _ _ _ HI); exact Hk|]. intros Hk1 T1 T2. cbn [ch_view h_interaction].
  destruct (hist_terms k l) as [|t tl] eqn:Et.
  - rewrite (ci_H12 _ _ _ _ _ HI k Hk Et). change (is_empty empty) with true. cbn iota.
    rewrite (Nat.add_1_r k), !(ci_dim _ _ _ _ _ HI) by assumption. rewrite T1, T2.
    split; [split; [reflexivity|apply wf_mk]|]. intros. cbn [terms_elem fold_right]. apply get_zeros. apply in_range_2; nia.
  - destruct (ci_H12' _ _ _ _ _ HI k Hk ltac:(rewrite Et; discriminate)) as (dd & E12). rewrite E12, Et.
    pose proof (ci_terms _ _ _ _ _ HI k) as HT. rewrite Et in HT.
    destruct (ch_compute_correct (ds k) (ds (S k)) (t :: tl) dd HT ltac:(discriminate) (Hp k) (Hp (S k))) as (C1 & C2).
    rewrite (is_matrix_not_empty _ _ _ C1) by (pose proof (Hp k); pose proof (Hp (S k)); nia).
    split; assumption.
Qed.

(** A chain in which every site was mentioned satisfies the hypotheses of the theorems about
    Hamiltonians; the bond from the last to the first site cannot be set. *)
Lemma ch_ham_ok N p ds l c : ch_inv N p ds l c -> (forall k, (0 < ds k)%nat) -> 
  Forall (call_ok N ds) l -> (forall k, (k < N)%nat -> existsb (touches k) l = true) -> ham_ok (ch_view c).
Proof.
  intros HI Hp Hl Ht.
  assert (HD : forall k, (k < N)%nat -> h_dim (ch_view c) k = ds k).
  { intros k Hk. change (h_dim (ch_view c) k) with (nth k (ch_dims c) 0%nat). rewrite (ci_dim _ _ _ _ _ HI k Hk), Ht by exact Hk. reflexivity. }
  assert (HS : h_size (ch_view c) = N) by apply (ci_l12 _ _ _ _ _ HI).
  constructor; rewrite ?HS.
  - intros k Hk. rewrite HD by exact Hk. apply Hp.
  - intros k Hk. rewrite HD by exact Hk. change (h_local (ch_view c) k) with (nth k (ch_H1 c) empty).
    rewrite (ci_local _ _ _ _ _ HI k Hk). clear -Hl. unfold hist_local.
    assert (G : forall t, local_ok (ds k) t -> local_ok (ds k) (fold_left (fun t x => match x with SetLocal k' H => if Nat.eqb k' k then H else t | _ => t end) l t)).
    { induction l as [|x l IH]; intros t Ht; [exact Ht|]. cbn [fold_left].
      assert (Hx := Forall_inv Hl). apply (IH (Forall_inv_tail Hl)). destruct x as [k' H|k' A B|k' A B]; try exact Ht.
      destruct (Nat.eqb_spec k' k) as [->|]; [left; apply Hx|exact Ht]. }
    apply G. right. reflexivity.
  - intros k Hk. rewrite !HD by lia. rewrite (ch_view_terms N p ds l c k HI) by lia. apply (ci_terms _ _ _ _ _ HI).
  - intros _ H1. rewrite (ch_view_terms N p ds l c (N - 1) HI) by lia. rewrite (ci_last _ _ _ _ _ HI) by lia. constructor.
Qed.

(** Calls on sites that do not exist are rejected, whatever was done before. *)
Lemma ch_rejects N p ds l c x : ch_inv N p ds l c ->
  match x with SetLocal k _ => (N <= k)%nat | SetInt k _ _ | AddInt k _ _ => (N <= S k)%nat end ->
  ch_exec c x = Abort.
Proof.
  intros HI Hx. destruct x as [k H|k A B|k A B]; cbn [ch_exec].
  - unfold ch_set_local_term. rewrite (ci_l1 _ _ _ _ _ HI). destruct (Nat.ltb_spec k N); [lia|reflexivity].
  - unfold ch_set_interaction. rewrite (ci_l12 _ _ _ _ _ HI). destruct (Nat.ltb_spec k N); [|reflexivity].
    unfold ch_add_interaction. cbn [ch_H12]. rewrite (ci_l12 _ _ _ _ _ HI). destruct (Nat.ltb_spec (k + 1) N); [lia|reflexivity].
  - unfold ch_add_interaction. rewrite (ci_l12 _ _ _ _ _ HI). destruct (Nat.ltb_spec (k + 1) N); [lia|reflexivity].
Qed.

Lemma ch_last_depth N p ds l c : ch_inv N p ds l c -> h_depth (ch_view c) (N - 1) = 0%nat.
Proof.
  intros HI. cbn [ch_view h_depth]. destruct N as [|n].
  - pose proof (ci_ll _ _ _ _ _ HI) as E. destruct (ch_left c); [reflexivity|discriminate].
  - rewrite (ci_left _ _ _ _ _ HI) by lia. rewrite (ci_last _ _ _ _ _ HI) by lia. reflexivity.
Qed.

End Const.
