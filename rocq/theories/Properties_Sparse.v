(** * C41: Hamiltonians of chains as sparse matrices

    [get Z [offset ds is; offset ds js]] is the element <is|Z|js>, where the first site is the fastest
    index.  [decomp] stands for decompose_operator(), which is only called for periodic chains. *)
From Coq Require Import Reals Lra Bool List Arith ZArith Lia Ring Psatz.
From Verif Require Import Scalar ScalarFacts RealInst RScal Tensor TensorFacts Spec MpsModel CanonSpec CanonModel
  TruncFacts SplitFacts CanonNorm HamSpec HamModel HamFacts HamConst ExpectedFacts DecompModel DecompFacts Properties_Ham Properties_Decomp
  SparseSpec SparseModel SparseFacts Instances.
Import ListNotations.
Local Open Scope K_scope.

Section Open.
Context {SC : Scalar}.
Variable decomp : tensor -> result (tensor * tensor).
Add Ring Kring : k_ring.

(** C41. sparse_1d_hamiltonian(H12, H1, N) of an open chain *)
Theorem C41_translation_invariant d H12 H1 N : ti_data d H12 H1 ->
  exists Z, pair_hamiltonian decomp H12 H1 N false = Ok Z /\ is_matrix Z (d ^ N) (d ^ N) /\
    let ds := repeat d N in
    forall is js, in_range ds is -> in_range ds js ->
      get Z [offset ds is; offset ds js] = pair_chain ds (fun _ => H12) (fun _ => H1) is js.
Proof.
  intros H. destruct (ti_ok decomp d H12 H1 N false 0 H ltac:(discriminate)) as (Z & E & HZ & HgZ).
  exists Z. split; [exact E|]. split; [exact HZ|]. cbv zeta in *. intros is js Hi Hj. rewrite HgZ by assumption. cbn [andb]. ring.
Qed.

(** C41. sparse_1d_hamiltonian(H12[], H1[]) of an open chain with different terms and dimensions *)
Theorem C41_inhomogeneous ds H12 H1 : chain_lists ds H12 H1 ->
  exists Z, sparse_1d_hamiltonian_many decomp H12 H1 false = Ok Z /\ is_matrix Z (nprod ds) (nprod ds) /\
    forall is js, in_range ds is -> in_range ds js ->
      get Z [offset ds is; offset ds js] = pair_chain ds (fun k => nth k H12 empty) (fun k => nth k H1 empty) is js.
Proof. exact (many_open_ok decomp ds H12 H1). Qed.

(** A product of matrices on neighbouring sites *)
Lemma pair_op_product_gen ds s k A B is js : in_range ds is -> in_range ds js -> (S k < length ds)%nat ->
  pair_op k ds (fun r c => A (r mod nth k ds 0)%nat (c mod nth k ds 0)%nat * B (r / nth k ds 0)%nat (c / nth k ds 0)%nat) is js =
  product_op s (fun m => if Nat.eqb m (s + k) then A else if Nat.eqb m (S (s + k)) then B else delta) is js.
Proof.
  intros Hi. revert s k js. induction Hi as [|d i ds is Hi Hr IH]; intros s k js Hj Hk; [cbn in Hk; lia|].
  apply in_range_cons_inv in Hj. destruct Hj as (j & js' & -> & Hj & Hjs). destruct k as [|k].
  - clear IH. destruct Hr as [|e i' ds is Hi' Hr]; [cbn in Hk; lia|].
    apply in_range_cons_inv in Hjs. destruct Hjs as (j' & js'' & -> & Hj' & Hjs).
    cbn [pair_op product_op nth]. rewrite Nat.add_0_r, Nat.eqb_refl. destruct (Nat.eqb_spec (S s) s); [lia|]. rewrite Nat.eqb_refl.
    assert (E1 : forall a b, (a < d)%nat -> ((a + d * b) mod d = a /\ (a + d * b) / d = b)%nat).
    { intros a b Ha. rewrite (Nat.mul_comm d b), Nat.mod_add, Nat.div_add, Nat.mod_small, Nat.div_small by lia. lia. }
    destruct (E1 i i' Hi) as (-> & ->). destruct (E1 j j' Hj) as (-> & ->).
    rewrite <- (product_op_id (S (S s))).
    rewrite (product_op_ext (S (S s)) (fun m => if Nat.eqb m s then A else if Nat.eqb m (S s) then B else delta) (fun _ => delta)).
    + ring.
    + intros m a b Hm. destruct (Nat.eqb_spec m s); [lia|]. destruct (Nat.eqb_spec m (S s)); [lia|]. reflexivity.
  - cbn [length] in Hk. cbn [pair_op product_op nth]. destruct (Nat.eqb_spec s (s + S k)); [lia|]. destruct (Nat.eqb_spec s (S (s + S k))); [lia|].
    f_equal. rewrite (IH (S s) k js' Hjs) by lia. apply product_op_ext. intros m a b Hm.
    replace (S s + k)%nat with (s + S k)%nat by lia. reflexivity.
Qed.

Lemma pair_op_ext ds k M M' is js : in_range ds is -> in_range ds js -> (S k < length ds)%nat ->
  (forall i1 i2 j1 j2, (i1 < nth k ds 0)%nat -> (i2 < nth (S k) ds 0)%nat -> (j1 < nth k ds 0)%nat -> (j2 < nth (S k) ds 0)%nat ->
    M (i1 + nth k ds 0 * i2)%nat (j1 + nth k ds 0 * j2)%nat = M' (i1 + nth k ds 0 * i2)%nat (j1 + nth k ds 0 * j2)%nat) ->
  pair_op k ds M is js = pair_op k ds M' is js.
Proof.
  intros Hi. revert k js. induction Hi as [|d i ds is Hi Hr IH]; intros k js Hj Hk H; [cbn in Hk; lia|].
  apply in_range_cons_inv in Hj. destruct Hj as (j & js' & -> & Hj & Hjs). destruct k as [|k].
  - destruct Hr as [|e i' ds is Hi' Hr]; [cbn in Hk; lia|].
    apply in_range_cons_inv in Hjs. destruct Hjs as (j' & js'' & -> & Hj' & Hjs). cbn [pair_op]. cbn [nth] in H. rewrite H by assumption. reflexivity.
  - cbn [length] in Hk. cbn [pair_op]. f_equal. apply IH; [exact Hjs|lia|exact H].
Qed.

Lemma pair_op_zero k ds is js : pair_op k ds (fun _ _ => 0) is js = 0.
Proof.
  revert ds is js. induction k as [|k IHk]; intros [|d ds] is js; try reflexivity; cbn [pair_op].
  - destruct is as [|i [|i' is]], js as [|j [|j' js]]; try reflexivity. ring.
  - destruct is as [|i is], js as [|j js]; try reflexivity. rewrite IHk. ring.
Qed.

Lemma pair_op_add k ds f g is js :
  pair_op k ds (fun r c => f r c + g r c) is js = pair_op k ds f is js + pair_op k ds g is js.
Proof.
  revert ds is js. induction k as [|k IHk]; intros [|d ds] is js; cbn [pair_op]; try ring.
  - destruct is as [|i [|i' is]], js as [|j [|j' js]]; ring.
  - destruct is as [|i is], js as [|j js]; try ring. rewrite IHk. ring.
Qed.

Lemma pair_op_fold {A} k ds (f : A -> nat -> nat -> K) l is js :
  pair_op k ds (fun r c => fold_right (fun p x => f p r c + x) 0 l) is js =
  fold_right (fun p x => pair_op k ds (f p) is js + x) 0 l.
Proof.
  induction l as [|p l IH]; cbn [fold_right]; [apply pair_op_zero|].
  rewrite <- IH. apply (pair_op_add k ds (f p) (fun r c => fold_right (fun p x => f p r c + x) 0 l)).
Qed.

(** The two-site matrix with the elements of a sum of products is that sum *)
Lemma pair_op_bond ds k M terms is js : in_range ds is -> in_range ds js -> (S k < length ds)%nat ->
  (forall i1 i2 j1 j2, (i1 < nth k ds 0)%nat -> (i2 < nth (S k) ds 0)%nat -> (j1 < nth k ds 0)%nat -> (j2 < nth (S k) ds 0)%nat ->
    M (i1 + nth k ds 0 * i2)%nat (j1 + nth k ds 0 * j2)%nat =
    fold_right (fun p x => mat (fst p) i1 j1 * mat (snd p) i2 j2 + x) 0 terms) ->
  pair_op k ds M is js = bond_op k (S k) terms is js.
Proof.
  intros Hi Hj Hk H. set (d := nth k ds 0%nat) in *.
  rewrite (pair_op_ext ds k M (fun r c => fold_right (fun p x => mat (fst p) (r mod d) (c mod d) * mat (snd p) (r / d) (c / d) + x) 0 terms) is js Hi Hj Hk).
  - rewrite (pair_op_fold k ds (fun p r c => mat (fst p) (r mod d) (c mod d) * mat (snd p) (r / d) (c / d))).
    unfold bond_op. clear H. induction terms as [|p l IH]; [reflexivity|]. cbn [fold_right].
    rewrite IH. f_equal. apply (pair_op_product_gen ds 0 k); assumption.
  - intros i1 i2 j1 j2 A B C D. fold d in A, C |- *. rewrite H by assumption.
    assert (E1 : forall a b, (a < d)%nat -> ((a + d * b) mod d = a /\ (a + d * b) / d = b)%nat).
    { intros a b Ha. rewrite (Nat.mul_comm d b), Nat.mod_add, Nat.div_add, Nat.mod_small, Nat.div_small by lia. lia. }
    destruct (E1 i1 i2 A) as (-> & ->). destruct (E1 j1 j2 C) as (-> & ->). reflexivity.
Qed.

(** C41. sparse_hamiltonian(H) of an open chain: the interactions of bonds with a positive depth *)
Theorem C41_sparse_hamiltonian H : h_periodic H = false ->
  let N := h_size H in let ds := h_dims H in
  let inter k := if Nat.eqb (h_depth H k) 0 then empty else h_interaction H k in
  (0 < N)%nat -> (forall k, (k < N)%nat -> (0 < h_dim H k)%nat) ->
  (forall k, (k < N)%nat -> is_matrix (h_local H k) (h_dim H k) (h_dim H k) \/
     (h_local H k = empty /\ (S k < N)%nat /\ h_depth H k <> 0%nat /\ h_dim H (S k) = h_dim H k)) ->
  (forall k, (S k < N)%nat -> h_depth H k <> 0%nat ->
     is_matrix (h_interaction H k) (h_dim H k * h_dim H (S k)) (h_dim H k * h_dim H (S k))) ->
  exists Z, sparse_hamiltonian decomp H = Ok Z /\ is_matrix Z (nprod ds) (nprod ds) /\
    forall is js, in_range ds is -> in_range ds js ->
      get Z [offset ds is; offset ds js] = pair_chain ds inter (h_local H) is js.
Proof.
  intros Hper N ds inter HN Hpos Hloc Hint. unfold sparse_hamiltonian. rewrite Hper. fold N.
  set (H1 := map (h_local H) (seq 0 N)).
  set (H12 := map (fun k => if (Nat.ltb k (N - 1) || false) && negb (Nat.eqb (h_depth H k) 0) then h_interaction H k else empty) (seq 0 N)).
  assert (Lds : length ds = N) by (unfold ds, h_dims; rewrite map_length, seq_length; reflexivity).
  assert (Nds : forall k, (k < N)%nat -> nth k ds 0%nat = h_dim H k) by (intros k Hk; apply nth_map_seq; exact Hk).
  assert (N1 : forall k, (k < N)%nat -> nth k H1 empty = h_local H k) by (intros k Hk; apply nth_map_seq; exact Hk).
  assert (N12 : forall k, (S k < N)%nat -> nth k H12 empty = inter k).
  { intros k Hk. unfold H12, inter. rewrite nth_map_seq by lia. destruct (Nat.ltb_spec k (N - 1)); [|lia]. cbn [orb andb].
    destruct (Nat.eqb (h_depth H k) 0); reflexivity. }
  assert (HC : chain_lists ds H12 H1).
  { unfold chain_lists. rewrite Lds. split; [exact HN|]. split; [intros k Hk; rewrite Nds by exact Hk; apply Hpos; exact Hk|].
    split; [unfold H1; rewrite map_length, seq_length; reflexivity|].
    split; [unfold H12; rewrite map_length, seq_length; lia|]. split.
    - intros k Hk. rewrite Lds in Hk. rewrite N1, Nds by exact Hk. destruct (Hloc k Hk) as [A|(A & B & C & D)]; [left; exact A|].
      right. split; [exact A|]. rewrite N12 by exact B. unfold inter. destruct (Nat.eqb_spec (h_depth H k) 0); [contradiction|].
      rewrite <- D at 2 4. apply Hint; assumption.
    - intros k Hk. rewrite N12, !Nds by lia. unfold inter. destruct (Nat.eqb_spec (h_depth H k) 0); [right; reflexivity|left].
      apply Hint; assumption. }
  destruct (many_open_ok decomp ds H12 H1 HC) as (Z & E & HZ & Hg). exists Z. split; [exact E|]. split; [exact HZ|].
  intros is js Hi Hj. rewrite Hg by assumption. unfold pair_chain. rewrite Lds. f_equal; apply sum_ext; intros k Hk.
  - rewrite N12 by lia. reflexivity.
  - rewrite N1 by lia. reflexivity.
Qed.

Lemma hist_not_nil k l : hist_terms k l <> [] -> exists x, In x l /\ touches k x = true /\ touches (S k) x = true.
Proof.
  unfold hist_terms.
  assert (G : forall l acc, fold_left (fun t x => match x with
    | SetInt k' A B => if Nat.eqb k' k then [(A, B)] else t
    | AddInt k' A B => if Nat.eqb k' k then t ++ [(A, B)] else t
    | _ => t end) l acc <> [] -> acc <> [] \/ exists x, In x l /\ touches k x = true /\ touches (S k) x = true).
  { clear l. induction l as [|x l IH]; intros acc H; [left; exact H|]. cbn [fold_left] in H. destruct (IH _ H) as [A|(y & A & B)].
    - destruct x as [k' t|k' t1 t2|k' t1 t2].
      + left. exact A.
      + destruct (Nat.eqb_spec k' k) as [->|]; [|left; exact A]. right. exists (SetInt k t1 t2). split; [left; reflexivity|].
        cbn [touches]. rewrite !Nat.eqb_refl, ?orb_true_r. auto.
      + destruct (Nat.eqb_spec k' k) as [->|]; [|left; exact A]. right. exists (AddInt k t1 t2). split; [left; reflexivity|].
        cbn [touches]. rewrite !Nat.eqb_refl, ?orb_true_r. auto.
    - right. exists y. split; [right; exact A|exact B]. }
  intros H. destruct (G l [] H) as [A|A]; [congruence|exact A].
Qed.

Lemma hist_local_touched k l : hist_local k l <> empty -> exists x, In x l /\ touches k x = true.
Proof.
  unfold hist_local.
  assert (G : forall l acc, fold_left (fun t x => match x with SetLocal k' H => if Nat.eqb k' k then H else t | _ => t end) l acc <> empty ->
     acc <> empty \/ exists x, In x l /\ touches k x = true).
  { clear l. induction l as [|x l IH]; intros acc H; [left; exact H|]. cbn [fold_left] in H. destruct (IH _ H) as [A|(y & A & B)].
    - destruct x as [k' t|k' t1 t2|k' t1 t2]; try (left; exact A).
      destruct (Nat.eqb_spec k' k) as [->|]; [|left; exact A]. right. exists (SetLocal k t). split; [left; reflexivity|].
      cbn [touches]. apply Nat.eqb_refl.
    - right. exists y. split; [right; exact A|exact B]. }
  intros H. destruct (G l empty H) as [A|A]; [congruence|exact A].
Qed.

Lemma hist_local_ok N ds k l : Forall (call_ok N ds) l -> is_matrix (hist_local k l) (ds k) (ds k) \/ hist_local k l = empty.
Proof.
  intros Hl. unfold hist_local.
  assert (G : forall acc, is_matrix acc (ds k) (ds k) \/ acc = empty ->
    let r := fold_left (fun t x => match x with SetLocal k' H => if Nat.eqb k' k then H else t | _ => t end) l acc in
    is_matrix r (ds k) (ds k) \/ r = empty).
  { cbv zeta. induction Hl as [|x l Hx Hl IH]; intros acc H; [exact H|]. cbn [fold_left]. apply IH.
    destruct x as [k' t|k' t1 t2|k' t1 t2]; try exact H. destruct (Nat.eqb_spec k' k) as [->|]; [|exact H]. left. apply Hx. }
  apply G. right. reflexivity.
Qed.

(** C41. The matrix of an open ConstantHamiltonian after any history of calls is the chain operator of the
    terms it was given, provided the dimension of each site can be read from a local term on it or from an
    interaction with a next site of the same dimension. *)
Theorem C41_constant_hamiltonian N dim_of l : Forall (call_ok N dim_of) l -> (forall k, (0 < dim_of k)%nat) -> (0 < N)%nat ->
  (forall k, (k < N)%nat -> hist_local k l <> empty \/ (hist_terms k l <> [] /\ dim_of (S k) = dim_of k)) ->
  exists c Z, ch_run N false l = Ok c /\ sparse_hamiltonian decomp (ch_view c) = Ok Z /\
    let ds := map dim_of (seq 0 N) in
    is_matrix Z (nprod ds) (nprod ds) /\
    forall is js, in_range ds is -> in_range ds js ->
      get Z [offset ds is; offset ds js] = chain_op N false (fun k => hist_local k l) (fun k => hist_terms k l) is js.
Proof.
  intros Hl Hp HN Hex. destruct (C39_constant_hamiltonian N false dim_of l Hl Hp) as (c & E & HsN & HpN & Hk).
  assert (Hlast : forall k, hist_terms k l <> [] -> (S k < N)%nat).
  { intros k H. destruct (hist_not_nil k l H) as (x & Hx & Ht & Ht'). rewrite Forall_forall in Hl. specialize (Hl x Hx).
    destruct x as [k' t|k' t1 t2|k' t1 t2]; cbn [touches call_ok] in *.
    - apply Nat.eqb_eq in Ht. apply Nat.eqb_eq in Ht'. lia.
    - destruct Hl as (Hl & _). destruct (Nat.eqb_spec k' k); [lia|]. cbn [orb] in Ht. apply Nat.eqb_eq in Ht.
      destruct (Nat.eqb_spec k' (S k)); [lia|]. cbn [orb] in Ht'. apply Nat.eqb_eq in Ht'. lia.
    - destruct Hl as (Hl & _). destruct (Nat.eqb_spec k' k); [lia|]. cbn [orb] in Ht. apply Nat.eqb_eq in Ht.
      destruct (Nat.eqb_spec k' (S k)); [lia|]. cbn [orb] in Ht'. apply Nat.eqb_eq in Ht'. lia. }
  assert (Htouch : forall k, (k < N)%nat -> existsb (touches k) l = true).
  { intros k Hk'. apply existsb_exists. destruct (Hex k Hk') as [A|(A & _)].
    - destruct (hist_local_touched k l A) as (x & Hx & Ht). exists x. auto.
    - destruct (hist_not_nil k l A) as (x & Hx & Ht & _). exists x. auto. }
  assert (Hdim : forall k, (k < N)%nat -> h_dim (ch_view c) k = dim_of k).
  { intros k Hk'. destruct (Hk k Hk') as (_ & _ & Hd & _). rewrite Hd, (Htouch k Hk'). reflexivity. }
  assert (Hdepth : forall k, (k < N)%nat -> h_depth (ch_view c) k = length (hist_terms k l)).
  { intros k Hk'. destruct (Hk k Hk') as (_ & Ht & _). rewrite <- Ht. unfold h_terms. rewrite map_length, seq_length. reflexivity. }
  assert (Eds : h_dims (ch_view c) = map dim_of (seq 0 N)).
  { unfold h_dims. rewrite HsN. apply map_ext_in. intros k Hin. apply in_seq in Hin. apply Hdim. lia. }
  destruct (C41_sparse_hamiltonian (ch_view c) HpN) as (Z & EZ & HZ & Hg).
  - rewrite HsN. exact HN.
  - intros k Hk'. rewrite HsN in Hk'. rewrite Hdim by exact Hk'. apply Hp.
  - intros k Hk'. rewrite HsN in *. rewrite Hdim by exact Hk'. destruct (Hk k Hk') as (Hloc & _). rewrite Hloc.
    destruct (hist_local_ok N dim_of k l Hl) as [A|A]; [left; exact A|]. right. destruct (Hex k Hk') as [B|(B & C)]; [contradiction|].
    pose proof (Hlast k B). split; [exact A|]. split; [assumption|]. rewrite Hdepth, (Hdim (S k)) by lia.
    split; [destruct (hist_terms k l); [congruence|discriminate]|exact C].
  - intros k Hk' _. rewrite HsN in *. rewrite !Hdim by lia. destruct (Hk k ltac:(lia)) as (_ & _ & _ & Hi).
    apply Hi; [exact Hk'|apply Htouch; lia|apply Htouch; lia].
  - exists c, Z. split; [exact E|]. split; [exact EZ|]. cbv zeta. rewrite Eds in HZ, Hg. split; [exact HZ|].
    intros is js Hi Hj. rewrite Hg by assumption. unfold pair_chain, chain_op. rewrite map_length, seq_length. cbn [andb].
    match goal with |- ?a + ?b = ?b' + ?a' + 0 => assert (A : a = a'); [|assert (B : b = b'); [|rewrite A, B; ring]] end.
    + apply sum_ext. intros k Hk'. destruct (Hk k ltac:(lia)) as (_ & _ & _ & HI).
      specialize (HI ltac:(lia) (Htouch k ltac:(lia)) (Htouch (S k) ltac:(lia))).
      destruct HI as (_ & HI). rewrite Hdepth by lia.
      apply pair_op_bond; [exact Hi|exact Hj|rewrite map_length, seq_length; lia|]. rewrite !nth_map_seq by lia. cbn [Nat.add].
      intros i1 i2 j1 j2 A B C D. destruct (Nat.eqb_spec (length (hist_terms k l)) 0) as [E0|E0].
      * destruct (hist_terms k l); [reflexivity|discriminate].
      * apply HI; assumption.
    + apply sum_ext. intros k Hk'. destruct (Hk k ltac:(lia)) as (Hloc & _). rewrite Hloc. reflexivity.
Qed.

(** C41. DEFECT: without a local term on the last site, sparse_hamiltonian() fails for every open
    ConstantHamiltonian. *)
Theorem C41_last_site_refuted N dim_of l : Forall (call_ok N dim_of) l -> (forall k, (0 < dim_of k)%nat) -> (0 < N)%nat ->
  hist_local (N - 1) l = empty ->
  exists c, ch_run N false l = Ok c /\ sparse_hamiltonian decomp (ch_view c) = Abort.
Proof.
  intros Hl Hp HN Hloc. destruct (C39_constant_hamiltonian N false dim_of l Hl Hp) as (c & E & HsN & HpN & Hk).
  exists c. split; [exact E|]. unfold sparse_hamiltonian. rewrite HsN, HpN.
  unfold sparse_1d_hamiltonian_many. rewrite !map_length, !seq_length, Nat.max_id.
  destruct (Nat.eqb_spec N 0); [reflexivity|]. 
  match goal with |- bind (guess_dims ?a ?b N) _ = _ => assert (EA : guess_dims a b N = Abort); [|rewrite EA; reflexivity] end.
  match goal with |- guess_dims ?a ?b N = _ => set (H12 := a); set (H1 := b) end. unfold guess_dims.
  assert (ES : seq 0 N = seq 0 (N - 1) ++ [N - 1]%nat).
  { replace N with (N - 1 + 1)%nat at 1 by lia. rewrite seq_app. reflexivity. }
  rewrite ES, fold_left_app. cbn [fold_left].
  match goal with |- bind ?r _ = _ => destruct r as [acc|]; [|reflexivity] end. cbn [bind].
  match goal with |- bind ?r _ = _ => assert (EG : r = Abort); [|rewrite EG; reflexivity] end.
  unfold guess_dim. rewrite !elem_ok by (unfold H12, H1; rewrite map_length, seq_length; lia). cbn [bind].
  unfold H12, H1. rewrite !nth_map_seq by lia. destruct (Hk (N - 1)%nat ltac:(lia)) as (-> & _). rewrite Hloc.
  cbn [is_empty empty data negb]. destruct (Nat.ltb_spec (N - 1) (N - 1)); [lia|]. reflexivity.
Qed.

End Open.

(** ** Periodic chains

    [svd] is any singular value decomposition; MPS_TRUNCATION_TOLERANCE is 0 or at least 1, so that only
    zero singular values are dropped. *)
Section Periodic.
Context {RS : RScal}.
Add Ring Kring2 : k_ring.
Variable svd : tensor -> tensor * list R * tensor.
Variable flag : R.
Hypothesis Hsvd : svd_contract svd.
Hypothesis Hflag : exact_flag flag.
Notation decomp := (decompose_operator svd flag).

Lemma rsum_term n f j : (j < n)%nat -> (forall i, (i < n)%nat -> (0 <= f i)%R) -> (f j <= rsum n f)%R.
Proof.
  induction n as [|n IH]; intros Hj H; [lia|]. cbn [rsum]. destruct (Nat.eq_dec j n) as [->|].
  - pose proof (rsum_nonneg n f ltac:(intros; apply H; lia)). lra.
  - pose proof (H n ltac:(lia)). pose proof (IH ltac:(lia) ltac:(intros; apply H; lia)). lra.
Qed.

Lemma frob2_pos H n : is_matrix H n n -> nonzero_op H n -> (0 < frob2 H)%R.
Proof.
  intros (HU1 & HU2) (i & j & Hi & Hj & Hne). rewrite (frob2_rsum H _ _ HU1 HU2).
  apply (Rlt_le_trans _ (kmod2 (get H [i; j]))).
  - destruct (Req_dec (kmod2 (get H [i; j])) 0) as [E|E]; [exfalso; apply Hne; apply kmod2_zero; exact E|].
    pose proof (kmod2_nonneg (get H [i; j])). lra.
  - apply Rle_trans with (rsum n (fun j => kmod2 (get H [i; j]))).
    + apply (rsum_term n (fun j => kmod2 (get H [i; j])) j Hj). intros; apply kmod2_nonneg.
    + apply (rsum_term n (fun i => rsum n (fun j => kmod2 (get H [i; j]))) i Hi). intros; apply rsum_nonneg; intros; apply kmod2_nonneg.
Qed.

Lemma decomp_decomposes H d : is_matrix H (d * d) (d * d) -> (0 < d)%nat -> nonzero_op H (d * d) ->
  exists n O1 O2, decomp H = Ok (O1, O2) /\ decomposes (rinj (/ sqrt (frob2 H))) H O1 O2 d n.
Proof.
  intros HU Hd Hnz. destruct (C43_decompose_partial svd flag Hsvd H d HU Hd Hnz Hflag) as (n & O1 & O2 & E & _ & D1 & _ & D2 & _ & HE).
  exists n, O1, O2. split; [exact E|]. split; [exact D1|]. split; [exact D2|]. intros r1 r2 c1 c2 A B C D. rewrite HE by assumption.
  pose proof (frob2_pos H _ HU Hnz) as Hp. apply sqrt_lt_R0 in Hp.
  transitivity (rinj (/ sqrt (frob2 H) * sqrt (frob2 H)) * sum n (fun k => get O1 [r1; c1; k] * get O2 [r2; c2; k])).
  - rewrite Rinv_l by lra. rewrite rinj_1. ring.
  - rewrite rinj_mul. ring.
Qed.

(** C41. sparse_1d_hamiltonian(H12, H1, N, true): the wrap-around term is H12 on the first and the last
    site, divided by its Frobenius norm.
    MISSING: the norm and the order of the two sites, see the refutations. *)
Theorem C41_translation_invariant_periodic_partial d H12 H1 N : ti_data d H12 H1 -> (1 < N)%nat ->
  is_matrix H12 (d * d) (d * d) -> nonzero_op H12 (d * d) ->
  exists Z, pair_hamiltonian decomp H12 H1 N true = Ok Z /\ is_matrix Z (d ^ N) (d ^ N) /\
    let ds := repeat d N in
    forall is js, in_range ds is -> in_range ds js ->
      get Z [offset ds is; offset ds js] = pair_chain ds (fun _ => H12) (fun _ => H1) is js +
        rinj (/ sqrt (frob2 H12)) * wrap_op d (mat H12) is js.
Proof.
  intros HT HN HM Hnz. pose proof HT as (Hd & _).
  destruct (ti_ok decomp d H12 H1 N true (rinj (/ sqrt (frob2 H12))) HT) as (Z & E & HZ & Hg).
  { intros _ _ _. apply decomp_decomposes; assumption. }
  exists Z. split; [exact E|]. split; [exact HZ|]. cbv zeta in *. intros is js Hi Hj. rewrite Hg by assumption.
  destruct (Nat.ltb_spec 1 N); [|lia]. reflexivity.
Qed.

(** C41. sparse_1d_hamiltonian(H12[], H1[], true): the same.
    MISSING: the norm and the order of the two sites, and chains whose first and last dimension differ. *)
Theorem C41_inhomogeneous_periodic_partial ds H12 H1 d : chain_lists ds H12 H1 -> (2 <= length ds)%nat ->
  length H12 = length ds -> nth 0 ds 0%nat = d -> nth (length ds - 1) ds 0%nat = d ->
  let Hw := nth (length ds - 1) H12 empty in
  is_matrix Hw (d * d) (d * d) -> nonzero_op Hw (d * d) ->
  exists Z, sparse_1d_hamiltonian_many decomp H12 H1 true = Ok Z /\ is_matrix Z (nprod ds) (nprod ds) /\
    forall is js, in_range ds is -> in_range ds js ->
      get Z [offset ds is; offset ds js] =
      pair_chain ds (fun k => nth k H12 empty) (fun k => nth k H1 empty) is js +
      rinj (/ sqrt (frob2 Hw)) * wrap_op d (mat Hw) is js.
Proof.
  intros HC HN HL H0 HE Hw HM Hnz.
  assert (Hd : (0 < d)%nat). { rewrite <- H0. destruct HC as (_ & HC & _). apply HC. lia. }
  destruct (decomp_decomposes Hw d HM Hd Hnz) as (n & O1 & O2 & E & HD).
  exact (many_periodic_ok decomp ds H12 H1 d n _ O1 O2 HC HN HL H0 HE E HD).
Qed.

(** C41. DEFECT: unless the interaction has Frobenius norm one, the periodic matrix is not the open one
    plus the interaction of the first and the last site. *)
Theorem C41_periodic_norm_refuted d H12 H1 N Z : ti_data d H12 H1 -> (1 < N)%nat ->
  is_matrix H12 (d * d) (d * d) -> nonzero_op H12 (d * d) -> frob2 H12 <> 1%R ->
  pair_hamiltonian decomp H12 H1 N true = Ok Z ->
  let ds := repeat d N in
  ~ (forall is js, in_range ds is -> in_range ds js ->
      get Z [offset ds is; offset ds js] =
      pair_chain ds (fun _ => H12) (fun _ => H1) is js + wrap_op d (mat H12) is js).
Proof.
  intros HT HN HM Hnz HF EZ ds Hall. pose proof HT as (Hd & _).
  destruct (C41_translation_invariant_periodic_partial d H12 H1 N HT HN HM Hnz) as (Z' & E & _ & Hg).
  rewrite EZ in E. injection E as <-. cbv zeta in Hg. fold ds in Hg.
  destruct Hnz as (r & c & Hr & Hc & Hne).
  destruct (split_index d r Hr Hd) as (r1 & r2 & Hr1 & Hr2 & ->). destruct (split_index d c Hc Hd) as (c1 & c2 & Hc1 & Hc2 & ->).
  assert (Eds : ds = d :: repeat d (N - 2) ++ [d]).
  { unfold ds. replace N with (S (N - 2 + 1)) at 1 by lia. cbn [repeat]. f_equal.
    replace [d] with (repeat d 1) by reflexivity. rewrite <- repeat_app. f_equal. }
  assert (Hin : forall a b, (a < d)%nat -> (b < d)%nat -> in_range ds (a :: repeat 0%nat (N - 2) ++ [b])).
  { intros a b Ha Hb. rewrite Eds. constructor; [exact Ha|]. apply Forall2_app; [|constructor; [exact Hb|constructor]].
    generalize (N - 2)%nat. intros m. induction m; cbn; constructor; assumption. }
  specialize (Hall _ _ (Hin r1 r2 Hr1 Hr2) (Hin c1 c2 Hc1 Hc2)). rewrite (Hg _ _ (Hin r1 r2 Hr1 Hr2) (Hin c1 c2 Hc1 Hc2)) in Hall.
  assert (EW : wrap_op d (mat H12) (r1 :: repeat 0%nat (N - 2) ++ [r2]) (c1 :: repeat 0%nat (N - 2) ++ [c2]) =
               get H12 [r1 + d * r2; c1 + d * c2]%nat).
  { unfold wrap_op. rewrite !last_last, !removelast_last. unfold mat.
    assert (EI : forall l, id_op l l = 1).
    { induction l as [|x l IH]; cbn [id_op]; [reflexivity|]. rewrite IH. unfold delta. rewrite Nat.eqb_refl. ring. }
    rewrite EI. ring. }
  rewrite EW in Hall. set (x := get H12 [r1 + d * r2; c1 + d * c2]%nat) in *.
  assert (Hp : (0 < frob2 H12)%R).
  { apply (frob2_pos H12 _ HM). exists (r1 + d * r2)%nat, (c1 + d * c2)%nat. auto. }
  assert (E2 : rinj (/ sqrt (frob2 H12)) * x = x).
  { match type of Hall with ?p + ?a = ?p + ?b => assert (X : (p + a) - p = (p + b) - p) by (rewrite Hall; reflexivity) end.
    replace (rinj (/ sqrt (frob2 H12)) * x) with
      (pair_chain ds (fun _ => H12) (fun _ => H1) (r1 :: repeat 0%nat (N - 2) ++ [r2]) (c1 :: repeat 0%nat (N - 2) ++ [c2]) + rinj (/ sqrt (frob2 H12)) * x
       - pair_chain ds (fun _ => H12) (fun _ => H1) (r1 :: repeat 0%nat (N - 2) ++ [r2]) (c1 :: repeat 0%nat (N - 2) ++ [c2])) by ring.
    rewrite X. ring. }
  apply (f_equal kmod2) in E2. rewrite kmod2_mul, kmod2_rinj in E2.
  assert (Hx : (0 < kmod2 x)%R).
  { destruct (Req_dec (kmod2 x) 0) as [E|E]; [exfalso; apply Hne; apply kmod2_zero; exact E|]. pose proof (kmod2_nonneg x). lra. }
  assert (E3 : (/ sqrt (frob2 H12) * / sqrt (frob2 H12) = 1)%R) by (apply Rmult_eq_reg_r with (kmod2 x); lra).
  rewrite <- Rinv_mult in E3. rewrite sqrt_sqrt in E3 by lra.
  apply HF. rewrite <- (Rinv_inv (frob2 H12)), E3. field.
Qed.

(** |0><0| and |1><1| *)
Definition proj (b : nat) : tensor := mk [2; 2]%nat (fun is => if Nat.eqb (nth 0 is 0%nat) b && Nat.eqb (nth 1 is 0%nat) b then 1 else 0).

(** C41. DEFECT: the wrap-around interaction acts with its first factor on the first site and its second
    factor on the last, while expected() (C40), as every open bond, has the first factor on the site of
    the bond.  For |0><0| x |1><1|, whose norm is one, the matrix is not the periodic chain operator. *)
Theorem C41_periodic_order_refuted N : (1 < N)%nat ->
  exists Z, pair_hamiltonian decomp (kron2 (proj 0) (proj 1)) empty N true = Ok Z /\
  let ds := repeat 2%nat N in
  ~ (forall is js, in_range ds is -> in_range ds js ->
      get Z [offset ds is; offset ds js] =
      chain_op N true (fun _ => empty) (fun _ => [(proj 0, proj 1)]) is js).
Proof.
  intros HN. set (H12 := kron2 (proj 0) (proj 1)).
  assert (HM : is_matrix H12 4 4) by (split; [reflexivity|apply wf_mk]).
  assert (H10 : (1 : K) <> 0) by (rewrite <- rinj_1, <- rinj_0; intros H; apply rinj_inj in H; lra).
  assert (Hget : forall i1 i2 j1 j2, (i1 < 2)%nat -> (i2 < 2)%nat -> (j1 < 2)%nat -> (j2 < 2)%nat ->
    get H12 [i1 + 2 * i2; j1 + 2 * j2]%nat = mat (proj 0) i1 j1 * mat (proj 1) i2 j2).
  { intros i1 i2 j1 j2 A B C D. unfold H12, mat.
    apply (get_kron2 (proj 0) (proj 1) 2 2); try assumption; split; reflexivity || apply wf_mk. }
  assert (Hnz : nonzero_op H12 4).
  { exists 2%nat, 2%nat. split; [lia|]. split; [lia|]. pose proof (Hget 0%nat 1%nat 0%nat 1%nat ltac:(lia) ltac:(lia) ltac:(lia) ltac:(lia)) as Hv. cbn [Nat.add Nat.mul] in Hv. rewrite Hv.
    intros H. apply H10. rewrite <- H. cbn. ring. }
  assert (HT : ti_data 2 H12 empty).
  { split; [lia|]. split; [left; exact HM|]. split; [right; reflexivity|]. intros (H & _). apply (f_equal dims) in H. discriminate. }
  destruct (C41_translation_invariant_periodic_partial 2 H12 empty N HT HN HM Hnz) as (Z & E & _ & Hg).
  exists Z. split; [exact E|]. cbv zeta in *. intros Hall.
  set (ds := repeat 2%nat N) in *.
  assert (Hin : in_range ds (1%nat :: repeat 0%nat (N - 1))).
  { unfold ds. replace N with (S (N - 1)) at 1 by lia. cbn [repeat]. constructor; [lia|].
    generalize (N - 1)%nat. intros m. induction m; cbn; constructor; lia || assumption. }
  specialize (Hall _ _ Hin Hin). rewrite (Hg _ _ Hin Hin) in Hall.
  unfold chain_op, pair_chain in Hall. unfold ds in Hall at 1 3. rewrite repeat_length in Hall. cbn [andb] in Hall.
  destruct (Nat.ltb_spec 1 N); [|lia].
  set (is := 1%nat :: repeat 0%nat (N - 1)) in *.
  assert (Eb : sum (N - 1) (fun k => pair_op k ds (mat H12) is is) = sum (N - 1) (fun k => bond_op k (S k) [(proj 0, proj 1)] is is)).
  { apply sum_ext. intros k Hk. apply pair_op_bond; try assumption; [unfold ds; rewrite repeat_length; lia|].
    intros i1 i2 j1 j2. unfold ds. rewrite !nth_repeat_lt by lia. intros A B C D. cbn [fold_right fst snd]. unfold mat at 1. rewrite Hget by assumption. ring. }
  rewrite Eb in Hall.
  assert (EW : wrap_op 2 (mat H12) is is = 0).
  { unfold is, wrap_op. replace (last (repeat 0%nat (N - 1)) 0)%nat with 0%nat.
    - unfold mat at 1. rewrite (Hget 1%nat 0%nat 1%nat 0%nat) by lia. cbn. ring.
    - clear. generalize (N - 1)%nat. intros m. induction m as [|m IH]; [reflexivity|]. cbn [repeat last]. destruct m; [reflexivity|exact IH]. }
  rewrite EW in Hall.
  assert (EB : bond_op (N - 1) 0 [(proj 0, proj 1)] is is = 1).
  { unfold bond_op, two_site. cbn [fold_right fst snd]. unfold is. cbn [product_op]. destruct (Nat.eqb_spec 0 (N - 1)); [lia|].
    cbn [Nat.eqb].
    assert (EP : forall m s, (s + m = N - 1)%nat -> (0 < s)%nat ->
       product_op s (fun k => if Nat.eqb k (N - 1) then mat (proj 0) else if Nat.eqb k 0 then mat (proj 1) else delta)
         (repeat 0%nat (S m)) (repeat 0%nat (S m)) = 1).
    { induction m as [|m IH]; intros s Hs Hp.
      - cbn [repeat product_op]. destruct (Nat.eqb_spec s (N - 1)); [|lia]. cbn. ring.
      - change (repeat 0%nat (S (S m))) with (0%nat :: repeat 0%nat (S m)). specialize (IH (S s) ltac:(lia) ltac:(lia)).
        remember (repeat 0%nat (S m)) as l. cbn [product_op].
        destruct (Nat.eqb_spec s (N - 1)); [lia|]. destruct (Nat.eqb_spec s 0); [lia|]. rewrite IH. unfold delta. cbn [Nat.eqb]. ring. }
    replace (repeat 0%nat (N - 1)) with (repeat 0%nat (S (N - 2))) by (f_equal; lia). rewrite EP by lia.
    cbn. ring. }
  rewrite EB in Hall. apply H10.
  match type of Hall with ?b + ?a + _ = ?a' + ?b' + 1 => 
    assert (X : (b + a + rinj (/ sqrt (frob2 H12)) * 0) - (a + b) = (a' + b' + 1) - (a' + b')) by (rewrite Hall; reflexivity) end.
  match type of X with ?l = ?r => transitivity r; [ring|rewrite <- X; ring] end.
Qed.

(** C41. DEFECT: a ConstantHamiltonian has no interaction of the last and the first site (C39), and the
    periodic term of its matrix is asked from the decomposition of an empty matrix, which fails. *)
Theorem C41_periodic_constant_refuted N dim_of l : Forall (call_ok N dim_of) l -> (forall k, (0 < dim_of k)%nat) -> (1 < N)%nat ->
  exists c, ch_run N true l = Ok c /\ sparse_hamiltonian decomp (ch_view c) = Abort.
Proof.
  intros Hl Hp HN. destruct (C39_constant_hamiltonian N true dim_of l Hl Hp) as (c & E & HsN & HpN & Hk).
  exists c. split; [exact E|]. unfold sparse_hamiltonian. rewrite HsN, HpN.
  match goal with |- sparse_1d_hamiltonian_many _ ?a ?b _ = _ => set (H12 := a); set (H1 := b) end.
  unfold sparse_1d_hamiltonian_many.
  assert (L12 : length H12 = N) by (unfold H12; rewrite map_length, seq_length; reflexivity).
  assert (L1 : length H1 = N) by (unfold H1; rewrite map_length, seq_length; reflexivity).
  rewrite L12, L1, Nat.max_id. destruct (Nat.eqb_spec N 0); [lia|].
  destruct (guess_dims H12 H1 N) as [d|]; [|reflexivity]. cbn [bind].
  match goal with |- bind ?r _ = _ => destruct r as [out|]; [|reflexivity] end. cbn [bind].
  destruct (Nat.ltb_spec 1 N); [|lia]. cbn [andb]. rewrite elem_ok by lia. cbn [bind].
  unfold H12. rewrite nth_map_seq by lia. rewrite orb_true_r. cbn [andb].
  destruct (Nat.eqb_spec (h_depth (ch_view c) (N - 1)) 0) as [E0|E0]; [reflexivity|]. exfalso. apply E0.
  destruct (ch_run_inv N true dim_of l Hl) as (c' & E' & HI). rewrite E in E'. injection E' as <-.
  exact (ch_last_depth N true dim_of l c HI).
Qed.

End Periodic.

(** ** The hypotheses are met *)

(** An open history on three sites of dimensions 2, 2, 3 *)
Definition zmat (d : nat) (a : Z) : @tensor ZScalar := @mk ZScalar [d; d]%nat (fun is => (a + Z.of_nat (nth 0 is 0%nat) - 2 * Z.of_nat (nth 1 is 0%nat))%Z).
Definition zhist : list (@ham_call ZScalar) :=
  [AddInt 0 (zmat 2 1) (zmat 2 3); AddInt 1 (zmat 2 0) (zmat 3 1); SetLocal 2 (zmat 3 5); AddInt 0 (zmat 2 2) (zmat 2 (-1)); SetLocal 1 (zmat 2 7)].
Definition zdim (k : nat) : nat := if Nat.eqb k 2 then 3%nat else 2%nat.

Example C41_case : Forall (call_ok 3 zdim) zhist /\ (forall k, (0 < zdim k)%nat) /\
  (forall k, (k < 3)%nat -> hist_local k zhist <> @empty ZScalar \/ (hist_terms k zhist <> [] /\ zdim (S k) = zdim k)).
Proof.
  split; [repeat constructor|]. split; [intros k; unfold zdim; destruct (Nat.eqb k 2); lia|].
  intros k Hk. destruct k as [|[|[|k]]]; [right|left|left|lia].
  - split; [discriminate|reflexivity].
  - discriminate.
  - discriminate.
Qed.

(** and one without a local term on the last site *)
Example C41_last_case : Forall (call_ok 3 zdim) (firstn 2 zhist) /\ hist_local 2 (firstn 2 zhist) = @empty ZScalar.
Proof. split; [repeat constructor|reflexivity]. Qed.

Example C41_ti_case : @ti_data (@rs_scalar RR) 2 (@xxzz RR) empty /\ is_matrix (@xxzz RR) 4 4 /\ nonzero_op (@xxzz RR) 4 /\
  frob2 (@xxzz RR) <> 1%R /\ exact_flag 0 /\ (exists svd, @svd_contract RR svd).
Proof.
  destruct C43_case as (A & B & _ & _ & C & D & _ & E & _).
  split; [|repeat (split; [assumption|]); exact E].
  split; [lia|]. split; [left; exact A|]. split; [right; reflexivity|]. intros (H & _). apply (f_equal (@dims _)) in H. discriminate.
Qed.

(** Three sites of dimensions 2, 3, 2 with a wrap-around interaction *)
Definition rmat (n : nat) : @tensor (@rs_scalar RR) := @mk (@rs_scalar RR) [n; n]%nat (fun is => INR (nth 0 is 0%nat + 1)).
Example C41_many_case : let ds := [2; 3; 2]%nat in let H12 := [rmat 6; empty; xxzz] in let H1 := [rmat 2; rmat 3; empty] in
  @chain_lists (@rs_scalar RR) ds H12 H1 /\ length H12 = length ds.
Proof.
  cbv zeta. split; [|reflexivity]. unfold chain_lists. cbn [length]. split; [lia|]. split.
  { intros [|[|[|k]]] Hk; cbn; lia. }
  split; [reflexivity|]. split; [lia|]. split.
  - intros [|[|[|k]]] Hk; cbn [nth length] in *; try lia.
    + left. split; [reflexivity|apply wf_mk].
    + left. split; [reflexivity|apply wf_mk].
    + right. split; [reflexivity|]. split; [reflexivity|apply wf_mk].
  - intros [|[|k]] Hk; cbn [nth]; try lia.
    + left. split; [reflexivity|apply wf_mk].
    + right. reflexivity.
Qed.
