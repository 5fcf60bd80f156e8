(** The add_* functions as operations on operators; product terms *)
From Coq Require Import Bool List Arith ZArith Lia Ring.
From Verif Require Import Scalar ScalarFacts Tensor TensorFacts Spec MpsModel MpsFacts EnvFacts
  ExpectedFacts MpoSpec MpoModel MpoFacts MpoThread MpoAddFacts MpoAddFacts2.
Import ListNotations.
Local Open Scope K_scope.

Section Add.
Context {SC : Scalar}.
Add Ring Kring : k_ring.

Ltac td := repeat first
  [ eassumption
  | apply dsb | apply dab
  | apply (dims_change0 _ _ _ _ _ _) | apply (dims_change3 _ _ _ _ _ _)
  | eapply dims_change0 | eapply dims_change3 ].
Ltac gsolve := first [ lia | assumption | td ].
Ltac gets := repeat first
  [ erewrite get_set_block by gsolve
  | erewrite get_add_block by gsolve
  | erewrite get_change_dim0 by gsolve
  | erewrite get_change_dim3 by gsolve ].
Ltac beq := repeat match goal with
  | |- context [Nat.eqb ?x ?y] => destruct (Nat.eqb_spec x y); try lia
  | |- context [Nat.ltb ?x ?y] => destruct (Nat.ltb_spec x y); try lia
  | |- context [Nat.leb ?x ?y] => destruct (Nat.leb_spec x y); try lia
  end.

(** What one call does: it keeps the form and adds a term. *)
Definition adds (ds : list nat) (O O' : mpo) (M : list nat -> list nat -> K) : Prop :=
  (exists b', hform ds b' O') /\
  forall is js, in_range ds is -> in_range ds js -> opelem O' is js = opelem O is js + M is js.

Lemma add_local_adds ds b O H i O' : hform ds b O -> add_local_term O H i = Ok O' ->
  (0 <= i < Z.of_nat (length ds))%Z /\
  dims H = [nth (Z.to_nat i) ds 0%nat; nth (Z.to_nat i) ds 0%nat] /\
  adds ds O O' (site_op (Z.to_nat i) (mat H)).
Proof.
  intros HF E. destruct (add_local_thread _ _ _ _ _ _ HF E) as (H1 & H2 & HT).
  split; [exact H1|]. split; [exact H2|]. split; [eexists; apply (thread_hform _ _ _ _ _ _ _ _ _ _ HF HT)|].
  intros is js His Hjs. rewrite (thread_opelem _ _ _ _ _ _ _ _ _ _ HF HT) by assumption. f_equal.
  assert (Li : length is = length ds) by (apply in_range_length; exact His).
  assert (Lj : length js = length is) by (rewrite Li; apply in_range_length; exact Hjs).
  rewrite Nw_local by exact Lj.
  rewrite (sum_single _ (Z.to_nat i)); [rewrite Nat.eqb_refl; reflexivity|lia|].
  intros p Hp Hne. destruct (Nat.eqb_spec p (Z.to_nat i)); [contradiction|]. apply site_op_zero.
Qed.

Lemma add_local_ok ds b O H i : hform ds b O -> (0 <= i < Z.of_nat (length ds))%Z ->
  dims H = [nth (Z.to_nat i) ds 0%nat; nth (Z.to_nat i) ds 0%nat] -> exists O', add_local_term O H i = Ok O'.
Proof.
  intros HF Hi HD. unfold add_local_term. rewrite (hf_len _ _ _ HF).
  destruct (Z.ltb_spec i 0); [lia|]. destruct (Z.leb_spec (Z.of_nat (length ds)) i); [lia|]. cbn [orb].
  unfold is_square, rank. rewrite HD. cbn [length Nat.eqb andb]. unfold dim at 1 2. rewrite HD. cbn [nth].
  rewrite Nat.eqb_refl. cbn [negb]. rewrite (hform_dim1 _ _ _ _ HF) by lia. 
  unfold dim at 1. rewrite HD. cbn [nth]. rewrite Nat.eqb_refl. cbn [negb]. eauto.
Qed.

Lemma add_nn_adds ds b O Hi i Hj O' : hform ds b O -> add_interaction O Hi i Hj = Ok O' ->
  (0 <= i)%Z /\ (i + 1 < Z.of_nat (length ds))%Z /\
  dims Hi = [nth (Z.to_nat i) ds 0%nat; nth (Z.to_nat i) ds 0%nat] /\
  dims Hj = [nth (S (Z.to_nat i)) ds 0%nat; nth (S (Z.to_nat i)) ds 0%nat] /\
  adds ds O O' (product_op 0 (fun k => if Nat.eqb k (Z.to_nat i) then mat Hi
                 else if Nat.eqb k (S (Z.to_nat i)) then mat Hj else delta)).
Proof.
  intros HF E. destruct (add_nn_thread _ _ _ _ _ _ _ HF E) as (H1 & H2 & H3 & H4 & HT).
  split; [exact H1|]. split; [exact H2|]. split; [exact H3|]. split; [exact H4|].
  split; [eexists; apply (thread_hform _ _ _ _ _ _ _ _ _ _ HF HT)|].
  intros is js His Hjs. rewrite (thread_opelem _ _ _ _ _ _ _ _ _ _ HF HT) by assumption. f_equal.
  assert (Li : length is = length ds) by (apply in_range_length; exact His).
  assert (Lj : length js = length is) by (rewrite Li; apply in_range_length; exact Hjs).
  apply Nw_nn; [exact Lj|lia].
Qed.

Lemma add_nn_ok ds b O Hi i Hj : hform ds b O -> (0 <= i)%Z -> (i + 1 < Z.of_nat (length ds))%Z ->
  dims Hi = [nth (Z.to_nat i) ds 0%nat; nth (Z.to_nat i) ds 0%nat] ->
  dims Hj = [nth (S (Z.to_nat i)) ds 0%nat; nth (S (Z.to_nat i)) ds 0%nat] ->
  exists O', add_interaction O Hi i Hj = Ok O'.
Proof.
  intros HF Hi0 Hi1 HD HD'. unfold add_interaction. rewrite (hf_len _ _ _ HF).
  destruct (Z.ltb_spec i 0); [lia|]. destruct (Z.leb_spec (Z.of_nat (length ds)) (i + 1)); [lia|].
  assert (S1 : is_square Hi = true) by (unfold is_square, rank, dim; rewrite HD; cbn; apply Nat.eqb_refl).
  assert (S2 : is_square Hj = true) by (unfold is_square, rank, dim; rewrite HD'; cbn; apply Nat.eqb_refl).
  rewrite S1, S2. cbn [negb]. cbv zeta. replace (Z.to_nat i + 1)%nat with (S (Z.to_nat i)) by lia.
  pose proof (hf_dims _ _ _ HF (Z.to_nat i) ltac:(lia)) as E1.
  pose proof (hf_dims _ _ _ HF (S (Z.to_nat i)) ltac:(lia)) as E2.
  assert (C1 : forall m, dim (change_dimension (site O (Z.to_nat i)) 3 m) 1 = dim Hi 0)
    by (intros m; unfold dim; rewrite (dims_change3 _ _ _ _ _ _ E1), HD; reflexivity).
  assert (C2 : forall m, dim (change_dimension (site O (S (Z.to_nat i))) 0 m) 1 = dim Hj 0)
    by (intros m; unfold dim; rewrite (dims_change0 _ _ _ _ _ _ E2), HD'; reflexivity).
  rewrite C1, C2, !Nat.eqb_refl. cbn [negb]. eauto.
Qed.

(** *** long range *)
Lemma long_range_checks ds b O H sign : hform ds b O ->
  (Nat.eqb (length H) (length O) &&
     forallb (fun k => has_dim (nth k H empty) (dim (site O k) 1) &&
                       match sign with Some s => has_dim s (dim (site O k) 1) | None => true end)
             (seq 0 (length O)) = true) <->
  (length H = length ds /\ forall k, (k < length ds)%nat ->
     dims (nth k H empty) = [nth k ds 0%nat; nth k ds 0%nat] /\
     match sign with Some s => dims s = [nth k ds 0%nat; nth k ds 0%nat] | None => True end).
Proof.
  intros HF. rewrite (hf_len _ _ _ HF), andb_true_iff, Nat.eqb_eq, forallb_forall.
  split; intros (H1 & H2); (split; [exact H1|]).
  - intros k Hk. specialize (H2 k). rewrite in_seq in H2. specialize (H2 ltac:(lia)).
    apply andb_true_iff in H2. destruct H2 as (H2 & H3). rewrite (hform_dim1 _ _ _ _ HF Hk) in *.
    split; [apply has_dim_spec; exact H2|]. destruct sign; [apply has_dim_spec; exact H3|exact I].
  - intros k Hk. rewrite in_seq in Hk. destruct (H2 k ltac:(lia)) as (H3 & H4).
    rewrite (hform_dim1 _ _ _ _ HF) by lia. unfold has_dim at 1, rank, dim. rewrite H3. cbn [length nth].
    rewrite !Nat.eqb_refl. cbn [andb]. destruct sign; [|reflexivity].
    unfold has_dim, rank, dim. rewrite H4. cbn [length nth]. rewrite !Nat.eqb_refl. reflexivity.
Qed.

Lemma star_op_zero n i op S is js : (i < length is)%nat -> length js = length is ->
  (forall x y, op i x y = 0) -> star_op n i op S is js = 0.
Proof.
  intros Hi Hl Hz. unfold star_op. apply sum_zero. intros j Hj. destruct (Nat.eqb_spec j i); [reflexivity|].
  apply (product_op_zero _ _ _ _ i); [lia|exact Hl|]. intros x y. rewrite Nat.eqb_refl. apply Hz.
Qed.

Lemma add_lr_adds ds b O H i sign O' : hform ds b O -> add_long_range O H i sign = Ok O' ->
  (0 <= i < Z.of_nat (length ds))%Z /\
  (length H = length ds /\ forall k, (k < length ds)%nat ->
     dims (nth k H empty) = [nth k ds 0%nat; nth k ds 0%nat] /\
     match sign with Some s => dims s = [nth k ds 0%nat; nth k ds 0%nat] | None => True end) /\
  adds ds O O' (star_op (length ds) (Z.to_nat i) (fun k => mat (nth k H empty)) (sgn sign)).
Proof.
  intros HF. unfold add_long_range.
  destruct (Z.ltb_spec i 0); [discriminate|].
  destruct (Z.leb_spec (Z.of_nat (length O)) i) as [|Hi]; [discriminate|]. cbn [orb].
  destruct (Nat.eqb (length H) (length O) && _) eqn:Ec; [|discriminate]. cbn [negb].
  apply (long_range_checks ds b O H sign HF) in Ec.
  rewrite (hf_len _ _ _ HF) in *. intros E. split; [lia|]. split; [exact Ec|].
  set (z := fun k => is_zero_tensor (nth k H empty)) in *. set (i0 := Z.to_nat i) in *.
  assert (Hi0 : (i0 < length ds)%nat) by (unfold i0; lia).
  change (is_zero_tensor (nth i0 H empty)) with (z i0) in E.
  destruct (z i0) eqn:Ez.
  - apply Ok_inj in E. subst O'. split; [exists b; exact HF|]. intros is js His Hjs.
    rewrite star_op_zero; [ring| | |].
    + rewrite (in_range_length _ _ His). exact Hi0.
    + rewrite (in_range_length _ _ His), (in_range_length _ _ Hjs). reflexivity.
    + intros x y. apply is_zero_get. exact Ez.
  - apply Ok_inj in E.
    destruct (skip_up_spec z 0 (length ds)) as (S1 & S2 & S3). destruct (skip_down_spec z (length ds)) as (D1 & D2 & D3).
    set (s := skip_up z 0 (length ds)) in *. set (e := skip_down z (length ds)) in *.
    assert (Hsi : (s <= i0 < e)%nat).
    { split.
      - destruct (le_lt_dec s i0); [assumption|]. rewrite S2 in Ez by lia. discriminate.
      - destruct (le_lt_dec e i0); [|assumption]. rewrite D2 in Ez by lia. discriminate. }
    pose proof (lr_thread ds b O H i0 sign s e HF Hsi D1 (fun k Hk => proj1 (proj2 Ec k Hk))) as HT.
    cbv zeta in HT. rewrite <- E. clear E O'.
    split; [eexists; eapply (thread_hform _ _ _ _ _ _ _ _ _ _ HF HT)|].
    intros is js His Hjs. rewrite (thread_opelem _ _ _ _ _ _ _ _ _ _ HF HT) by assumption. f_equal.
    apply (lr_value ds O H i0 sign s e Hsi D1); try assumption.
    intros k Hk Hne.
    change (z k = true). destruct (lt_dec k s); [apply S2; lia|apply D2; lia].
Qed.

Lemma add_lr_ok ds b O H i sign : hform ds b O -> (0 <= i < Z.of_nat (length ds))%Z ->
  (length H = length ds /\ forall k, (k < length ds)%nat ->
     dims (nth k H empty) = [nth k ds 0%nat; nth k ds 0%nat] /\
     match sign with Some s => dims s = [nth k ds 0%nat; nth k ds 0%nat] | None => True end) ->
  exists O', add_long_range O H i sign = Ok O'.
Proof.
  intros HF Hi Hc. unfold add_long_range. apply (long_range_checks ds b O H sign HF) in Hc. rewrite Hc.
  rewrite (hf_len _ _ _ HF).
  destruct (Z.ltb_spec i 0); [lia|]. destruct (Z.leb_spec (Z.of_nat (length ds)) i); [lia|]. cbn [orb negb].
  destruct (is_zero_tensor _); eauto.
Qed.

(** *** hopping *)
Lemma product_op_scale s f g is js k c : (s <= k < s + length is)%nat -> length js = length is ->
  (forall i j, f k i j = c * g k i j) -> (forall m i j, m <> k -> f m i j = g m i j) ->
  product_op s f is js = c * product_op s g is js.
Proof.
  revert s js. induction is as [|i is IH]; intros s [|j js] Hk Hl H1 H2; cbn in *; try lia.
  destruct (Nat.eq_dec s k) as [->|Hne].
  - rewrite H1. rewrite (product_op_ext_in (S k) f g) by (intros; apply H2; lia). ring.
  - rewrite (H2 s) by exact Hne. rewrite (IH (S s)); [ring|lia|lia|exact H1|exact H2].
Qed.

Definition hop_ops (L : nat) (J ad a : tensor) (j : nat) : list tensor :=
  map (fun i => if Nat.eqb i j then ad else tscale (get J [j; i]) a) (seq 0 L).

Lemma hop_star ds J ad a S j is js : in_range ds is -> in_range ds js -> (j < length ds)%nat ->
  wf a -> (forall k, (k < length ds)%nat -> dims a = [nth k ds 0%nat; nth k ds 0%nat]) ->
  star_op (length ds) j (fun k => mat (nth k (hop_ops (length ds) J ad a j) empty)) (fun _ => S) is js =
  sum (length ds) (fun i => if Nat.eqb i j then 0
    else get J [j; i] * product_op 0 (fun k => if Nat.eqb k j then mat ad else if Nat.eqb k i then mat a
           else if Nat.ltb (Nat.min i j) k && Nat.ltb k (Nat.max i j) then S else delta) is js).
Proof.
  intros His Hjs Hj Hw Hd. unfold star_op. apply sum_ext. intros i Hi.
  destruct (Nat.eqb_spec i j); [reflexivity|].
  rewrite (Nat.min_comm j i), (Nat.max_comm j i).
  assert (Li : length is = length ds) by (apply in_range_length; exact His).
  assert (Lj : length js = length is) by (rewrite Li; apply in_range_length; exact Hjs).
  transitivity (product_op 0 (fun k => if Nat.eqb k j then mat ad else if Nat.eqb k i then (fun x y => get J [j; i] * mat a x y)
           else if Nat.ltb (Nat.min i j) k && Nat.ltb k (Nat.max i j) then S else delta) is js).
  - apply (product_op_ext_ds ds); [exact His|exact Hjs|]. intros k x y Hk Hx Hy.
    unfold hop_ops. rewrite !nth_map_seq by assumption. rewrite Nat.eqb_refl.
    destruct (Nat.eqb_spec k j); [reflexivity|]. destruct (Nat.eqb_spec k i) as [->|]; [|reflexivity].
    destruct (Nat.eqb_spec i j); [contradiction|]. unfold mat. apply get_tscale; [exact Hw|].
    rewrite (Hd i Hi). apply in_range_2; assumption.
  - apply (product_op_scale _ _ _ _ _ i); [lia|exact Lj| |].
    + intros x y. destruct (Nat.eqb_spec i j); [contradiction|]. rewrite Nat.eqb_refl. reflexivity.
    + intros m x y Hm. destruct (Nat.eqb_spec m j); [reflexivity|]. destruct (Nat.eqb_spec m i); [contradiction|]. reflexivity.
Qed.

Lemma fold_bind_abort {A B} (f : A -> B -> result A) l :
  fold_left (fun r j => bind r (fun O => f O j)) l Abort = Abort.
Proof. induction l as [|x l IH]; [reflexivity|exact IH]. Qed.

Lemma add_hopping_adds ds b O J ad a sg O' : hform ds b O -> add_hopping O J ad a sg = Ok O' -> wf a ->
  adds ds O O' (hopping_op (length ds) (mat J) (mat ad) (mat a) (mat sg)).
Proof.
  intros HF. unfold add_hopping. destruct (_ && _ && _); [|discriminate]. rewrite (hf_len _ _ _ HF).
  intros E Hw. unfold hopping_op.
  (* generalise over the processed sites *)
  assert (G : forall m O1, (exists b1, hform ds b1 O1) -> (m <= length ds)%nat ->
     fold_left (fun r j => bind r (fun O => add_long_range O (hop_ops (length ds) J ad a j) (Z.of_nat j) (Some sg)))
       (seq (length ds - m) m) (Ok O1) = Ok O' ->
     (exists b', hform ds b' O') /\
     forall is js, in_range ds is -> in_range ds js ->
       opelem O' is js = opelem O1 is js + sum m (fun j => sum (length ds) (fun i => if Nat.eqb i (length ds - m + j) then 0
         else mat J (length ds - m + j) i * product_op 0 (fun k => if Nat.eqb k (length ds - m + j) then mat ad else if Nat.eqb k i then mat a
           else if Nat.ltb (Nat.min i (length ds - m + j)) k && Nat.ltb k (Nat.max i (length ds - m + j)) then mat sg else delta) is js))).
  { induction m as [|m IH]; intros O1 (b1 & H1) Hm Ef.
    - cbn in Ef. apply Ok_inj in Ef. subst O'. split; [eauto|]. intros. cbn. ring.
    - cbn [seq fold_left bind] in Ef.
      destruct (add_long_range O1 (hop_ops (length ds) J ad a (length ds - S m)) (Z.of_nat (length ds - S m)) (Some sg)) as [O2|] eqn:E2.
      2:{ rewrite (fold_bind_abort (fun O j => add_long_range O (hop_ops (length ds) J ad a j) (Z.of_nat j) (Some sg))) in Ef. discriminate. }
      replace (S (length ds - S m)) with (length ds - m)%nat in Ef by lia.
      destruct (add_lr_adds _ _ _ _ _ _ _ H1 E2) as (_ & (Hc1 & Hc2) & Ha1 & Ha2).
      destruct (IH O2 Ha1 ltac:(lia) Ef) as (I1 & I2). split; [exact I1|].
      intros is js His Hjs. rewrite I2, Ha2 by assumption. rewrite sum_S_l, Nat.add_0_r, Nat2Z.id.
      change (fun k => sgn (Some sg) k) with (fun _ : nat => mat sg). unfold sgn.
      assert (Hda : forall k, (k < length ds)%nat -> dims a = [nth k ds 0%nat; nth k ds 0%nat]).
      { intros k Hk. pose proof (hf_n _ _ _ HF) as Hn2.
        destruct (Nat.eq_dec k (length ds - S m)) as [Ek|Ek].
        - (* dimensions of the sign are those of site k; those of a are seen at another site *)
          destruct (Hc2 k Hk) as (_ & Hs).
          set (k' := if Nat.eqb k 0 then 1%nat else 0%nat).
          assert (Hk' : (k' < length ds)%nat /\ k' <> k) by (unfold k'; destruct (Nat.eqb_spec k 0); lia).
          destruct (Hc2 k' (proj1 Hk')) as (Ha' & Hs'). unfold hop_ops in Ha'. rewrite nth_map_seq in Ha' by lia.
          destruct (Nat.eqb_spec k' (length ds - S m)); [lia|]. cbn in Ha'. congruence.
        - destruct (Hc2 k Hk) as (Ha' & _). unfold hop_ops in Ha'. rewrite nth_map_seq in Ha' by lia.
          destruct (Nat.eqb_spec k (length ds - S m)); [lia|]. exact Ha'. }
      rewrite (hop_star ds J ad a (mat sg)) by (assumption || lia).
      set (X := sum (length ds) _). set (Y := sum m _). set (Z0 := sum m _).
      assert (EYZ : Y = Z0).
      { unfold Y, Z0. apply sum_ext. intros j Hj. replace (length ds - S m + S j)%nat with (length ds - m + j)%nat by lia. reflexivity. }
      rewrite EYZ. unfold X, mat. ring. }
  specialize (G (length ds) O (ex_intro _ b HF) (Nat.le_refl _)). rewrite Nat.sub_diag in G.
  destruct (G E) as (G1 & G2). split; [exact G1|]. intros is js His Hjs. rewrite G2 by assumption. reflexivity.
Qed.

Lemma add_hopping_ok ds b O J ad a sg : hform ds b O ->
  dims J = [length ds; length ds] ->
  (forall k, (k < length ds)%nat -> dims ad = [nth k ds 0%nat; nth k ds 0%nat] /\
     dims a = [nth k ds 0%nat; nth k ds 0%nat] /\ dims sg = [nth k ds 0%nat; nth k ds 0%nat]) ->
  exists O', add_hopping O J ad a sg = Ok O'.
Proof.
  intros HF HJ Hd. unfold add_hopping, rank, dim. rewrite HJ, (hf_len _ _ _ HF). cbn [length nth].
  rewrite !Nat.eqb_refl. cbn [andb].
  assert (G : forall l O1, (exists b1, hform ds b1 O1) -> (forall j, In j l -> (j < length ds)%nat) ->
     exists O', fold_left (fun r j => bind r (fun O => add_long_range O (hop_ops (length ds) J ad a j) (Z.of_nat j) (Some sg))) l (Ok O1) = Ok O').
  { induction l as [|j l IH]; intros O1 (b1 & H1) Hl; [cbn; eauto|]. cbn [fold_left bind].
    assert (Hj : (j < length ds)%nat) by (apply Hl; left; reflexivity).
    destruct (add_lr_ok ds b1 O1 (hop_ops (length ds) J ad a j) (Z.of_nat j) (Some sg) H1) as (O2 & E2).
    - lia.
    - split; [unfold hop_ops; rewrite map_length, seq_length; reflexivity|]. intros k Hk.
      destruct (Hd k Hk) as (D1 & D2 & D3). split; [|exact D3]. unfold hop_ops. rewrite nth_map_seq by exact Hk.
      destruct (Nat.eqb k j); [exact D1|exact D2].
    - rewrite E2. apply IH; [|intros; apply Hl; right; assumption].
      destruct (add_lr_adds _ _ _ _ _ _ _ H1 E2) as (_ & _ & Ha1 & _). exact Ha1. }
  apply G; [eauto|]. intros j Hj. apply in_seq in Hj. lia.
Qed.

(** *** product terms *)
Section Prod.
Variables (ds : list nat) (b : nat -> nat) (O : mpo) (H : list tensor) (s e : nat).
Hypothesis HF : hform ds b O.
Hypothesis Hse : (s < e)%nat.
Hypothesis He : (e <= length ds)%nat.
Let n := length ds.
Let cl := if Nat.eqb e n then 0%nat else 1%nat.
Let O' := map (fun j => if Nat.leb s j && Nat.ltb j e then product_site O H s e cl j else site O j) (seq 0 n).
Let Hm k := mat (nth k H empty).
Let pU := fun k => if Nat.eqb k s && Nat.ltb (S k) e then Hm k else fun _ _ => 0.
Let pT := fun k => if Nat.ltb s k && Nat.ltb (S k) e then Hm k else fun _ _ => 0.
Let pC := fun k => if Nat.ltb s k && Nat.eqb (S k) e then Hm k else fun _ _ => 0.
Let pD := fun k => if Nat.eqb k s && Nat.eqb (S k) e then Hm k else fun _ _ => 0.

Lemma pr_site_dims k : (s <= k < e)%nat ->
  dims (product_site O H s e cl k) =
  [(b k + (if nb s e k then 1 else 0))%nat; nth k ds 0%nat; nth k ds 0%nat;
   (b (S k) + (if nb s e (S k) then 1 else 0))%nat] /\ wf (product_site O H s e cl k).
Proof.
  intros Hk. pose proof (hf_dims _ _ _ HF k ltac:(lia)) as HD.
  unfold product_site, nb.
  assert (E0 : dim (site O k) 0 = b k) by (unfold dim; rewrite HD; reflexivity).
  assert (E3 : dim (site O k) 3 = b (S k)) by (unfold dim; rewrite HD; reflexivity).
  rewrite E0, E3.
  destruct (Nat.ltb_spec s k), (Nat.ltb_spec (k + 1) e), (Nat.ltb_spec k e), (Nat.ltb_spec s (S k)), (Nat.ltb_spec (S k) e); try lia;
  cbn [andb negb]; rewrite ?Nat.add_0_r, ?Nat.add_1_r;
  (destruct (Nat.eqb _ 0 && Nat.eqb _ cl); (split; [td|apply wf_mk])).
Qed.

Lemma pr_site_get k a c x y : (s <= k < e)%nat ->
  (a < b k + (if nb s e k then 1 else 0))%nat -> (c < b (S k) + (if nb s e (S k) then 1 else 0))%nat ->
  (x < nth k ds 0%nat)%nat -> (y < nth k ds 0%nat)%nat ->
  get (product_site O H s e cl k) [a; x; y; c] =
  if Nat.eqb a (b k) then
    if Nat.eqb c (b (S k)) then Hm k x y
    else if Nat.eqb c (fin n k) && Nat.eqb (S k) e then Hm k x y else 0
  else if Nat.eqb c (b (S k)) then (if Nat.eqb a 0 && Nat.eqb k s then Hm k x y else 0)
  else get (site O k) [a; x; y; c] + (if Nat.eqb a 0 && Nat.eqb c (fin n k) && Nat.eqb k s && Nat.eqb (S k) e then Hm k x y else 0).
Proof.
  intros Hk Ha Hc Hx Hy. pose proof (hf_dims _ _ _ HF k ltac:(lia)) as HD.
  unfold product_site. unfold nb in Ha, Hc.
  assert (E0 : dim (site O k) 0 = b k) by (unfold dim; rewrite HD; reflexivity).
  assert (E3 : dim (site O k) 3 = b (S k)) by (unfold dim; rewrite HD; reflexivity).
  rewrite E0, E3.
  pose proof (hf_b0 _ _ _ HF). pose proof (hf_bn _ _ _ HF).
  assert (Hb0 : (0 < b k)%nat) by (apply (hform_bpos ds b O HF); lia).
  assert (Hb1 : (0 < b (S k))%nat) by (apply (hform_bpos ds b O HF); lia).
  assert (Hbk : (s < k -> 2 <= b k)%nat) by (intros; apply (hf_b _ _ _ HF); lia).
  assert (Hbk' : (S k < e -> 2 <= b (S k))%nat) by (intros; apply (hf_b _ _ _ HF); lia).
  assert (Hfin : (fin n k < b (S k))%nat) by (apply (fin_lt ds b O HF); unfold n; lia).
  assert (Hcl : (S k < e -> fin n k = 1)%nat) by (intros; unfold fin, n; beq; reflexivity).
  assert (Hlc : (S k = e -> fin n k = cl)%nat) by (intros; unfold cl, fin, n; beq; reflexivity).
  assert (Hcl1 : (cl <= 1)%nat) by (unfold cl; destruct (Nat.eqb e n); lia).
  unfold Hm, mat.
  replace (Nat.ltb k e) with true in Ha by (beq; reflexivity).
  replace (Nat.ltb s (S k)) with true in Hc by (beq; reflexivity).
  rewrite andb_true_r in Ha. cbn [andb] in Hc. rewrite !(Nat.add_1_r k).
  destruct (Nat.ltb_spec s k), (Nat.ltb_spec (S k) e); try lia.
  - assert (Ef : fin n k = 1%nat) by (apply Hcl; lia). rewrite Ef in *.
    destruct (Nat.eqb_spec (b k) 0); [lia|]. cbn [andb].
    do 5 (gets; beq; cbn [andb]); try reflexivity; try ring.
  - assert (Ef : fin n k = cl) by (apply Hlc; lia). rewrite <- Ef.
    destruct (Nat.eqb_spec (b k) 0); [lia|]. cbn [andb].
    do 5 (gets; beq; cbn [andb]); try reflexivity; try ring.
  - assert (Ef : fin n k = 1%nat) by (apply Hcl; lia). rewrite Ef in *.
    destruct (Nat.eqb_spec (b (S k)) cl); [lia|]. rewrite andb_false_r.
    do 5 (gets; beq; cbn [andb]); try reflexivity; try ring.
  - assert (Ef : fin n k = cl) by (apply Hlc; lia). rewrite <- Ef. rewrite !Nat.eqb_refl. cbn [andb].
    do 5 (gets; beq; cbn [andb]); try reflexivity; try ring.
Qed.

Lemma pr_thread : thread ds b O O' s e pU pT pC pD.
Proof.
  assert (Hs : forall k, (k < length ds)%nat -> site O' k =
     if Nat.leb s k && Nat.ltb k e then product_site O H s e cl k else site O k).
  { intros k Hk. unfold O'. rewrite site_map_seq by exact Hk. reflexivity. }
  assert (Hin : forall k, ((s <= k < e)%nat /\ Nat.leb s k && Nat.ltb k e = true) \/
                          (~ (s <= k < e)%nat /\ Nat.leb s k && Nat.ltb k e = false)).
  { intros k. destruct (Nat.leb_spec s k), (Nat.ltb_spec k e); cbn; [left|right|right|right]; split; try reflexivity; lia. }
  constructor; try intros k.
  - exact He.
  - unfold O'. rewrite map_length, seq_length. reflexivity.
  - intros Hk. rewrite Hs by exact Hk. destruct (Hin k) as [(E1 & ->)|(E1 & ->)].
    + apply pr_site_dims. exact E1.
    + destruct (nb_out s e k E1) as (-> & ->). rewrite !Nat.add_0_r. apply (hf_dims _ _ _ HF). exact Hk.
  - intros Hk. rewrite Hs by exact Hk. destruct (Hin k) as [(E1 & ->)|(E1 & ->)].
    + apply pr_site_dims. exact E1.
    + apply (hf_wf _ _ _ HF). exact Hk.
  - intros a c x y Hk Ha Hc Hx Hy. rewrite Hs by exact Hk. destruct (Hin k) as [(E1 & ->)|(E1 & ->)].
    + rewrite pr_site_get by (assumption || lia). destruct (Nat.eqb_spec a (b k)); [lia|].
      destruct (Nat.eqb_spec c (b (S k))); [lia|]. f_equal. unfold pD, n, delta.
      destruct (Nat.eqb a 0), (Nat.eqb c (fin (length ds) k)), (Nat.eqb k s), (Nat.eqb (S k) e); cbn [andb]; ring.
    + unfold pD. destruct (Nat.eqb_spec k s); [lia|]. cbn [andb]. ring.
  - intros a x y Hk Ha Hn Hx Hy. rewrite Hs by exact Hk. destruct (Hin k) as [(E1 & ->)|(E1 & ->)].
    2:{ destruct (nb_out s e k E1) as (_ & E2). congruence. }
    rewrite pr_site_get; [|assumption|lia|rewrite Hn; lia|assumption|assumption].
    destruct (nb_in s e k E1) as (_ & E3). rewrite E3 in Hn. unfold pU. rewrite Hn, Nat.eqb_refl, andb_true_r.
    destruct (Nat.eqb_spec a (b k)); [lia|]. unfold delta.
    destruct (Nat.eqb a 0), (Nat.eqb k s); cbn [andb]; ring.
  - intros c x y Hk Hn Hc Hx Hy. rewrite Hs by exact Hk. destruct (Hin k) as [(E1 & ->)|(E1 & ->)].
    2:{ destruct (nb_out s e k E1) as (E2 & _). congruence. }
    rewrite pr_site_get; [|assumption|rewrite Hn; lia|lia|assumption|assumption].
    destruct (nb_in s e k E1) as (E3 & _). rewrite E3 in Hn. unfold pC. rewrite Hn, Nat.eqb_refl.
    destruct (Nat.eqb_spec c (b (S k))); [lia|]. unfold delta, n.
    destruct (Nat.eqb c (fin (length ds) k)), (Nat.eqb (S k) e); cbn [andb]; ring.
  - intros x y Hk Hn Hn' Hx Hy. rewrite Hs by exact Hk. destruct (Hin k) as [(E1 & ->)|(E1 & ->)].
    2:{ destruct (nb_out s e k E1) as (E2 & _). congruence. }
    rewrite pr_site_get; [|assumption|rewrite Hn; lia|rewrite Hn'; lia|assumption|assumption].
    destruct (nb_in s e k E1) as (E3 & E4). rewrite E3 in Hn. rewrite E4 in Hn'.
    rewrite !Nat.eqb_refl. unfold pT. rewrite Hn, Hn'. reflexivity.
  - intros x y Hn. unfold pU. destruct (Nat.eqb_spec k s) as [->|]; [|reflexivity].
    destruct (nb_in s e s ltac:(lia)) as (_ & E). rewrite E in Hn. rewrite Hn. reflexivity.
  - intros x y Hn. unfold pT. destruct (Nat.ltb_spec s k); [|reflexivity]. cbn [andb].
    destruct (Nat.ltb_spec (S k) e); [|reflexivity].
    destruct (nb_in s e k ltac:(lia)) as (_ & E). rewrite E in Hn. destruct (Nat.ltb_spec (S k) e); [discriminate|lia].
Qed.

Lemma pr_value is js : in_range ds is -> in_range ds js ->
  (forall k, (k < length ds)%nat -> ~ (s <= k < e)%nat -> forall x y, (x < nth k ds 0%nat)%nat -> (y < nth k ds 0%nat)%nat ->
     Hm k x y = delta x y) ->
  Nw pU pT pC pD 0 is js = product_op 0 Hm is js.
Proof.
  intros His Hjs Hid.
  assert (Li : length is = length ds) by (apply in_range_length; exact His).
  assert (Lj : length js = length is) by (rewrite Li; apply in_range_length; exact Hjs).
  rewrite Nw_sum by exact Lj. cbn [Nat.add]. rewrite Li.
  destruct (Nat.eq_dec (S s) e) as [E|E].
  - rewrite (sum_single _ s (fun p => product_op _ _ _ _)); [|lia|].
    2:{ intros p Hp Hne. apply (product_op_zero _ _ _ _ p); [lia|exact Lj|]. intros x y. rewrite Nat.eqb_refl.
        unfold pD. destruct (Nat.eqb_spec p s); [contradiction|reflexivity]. }
    rewrite (sum_zero (length ds) (fun p => sum _ _)).
    2:{ intros p Hp. apply sum_zero. intros q Hq. destruct (Nat.ltb_spec p q); [|reflexivity].
        apply (product_op_zero _ _ _ _ p); [lia|exact Lj|]. intros x y. rewrite Nat.eqb_refl. unfold pU.
        destruct (Nat.eqb_spec p s); [|reflexivity]. destruct (Nat.ltb_spec (S p) e); [lia|reflexivity]. }
    transitivity (product_op 0 (fun m => if Nat.eqb m s then pD m else delta) is js); [ring|].
    apply (product_op_ext_ds ds); [exact His|exact Hjs|]. intros k x y Hk Hx Hy.
    destruct (Nat.eqb_spec k s) as [->|Hne].
    + unfold pD. rewrite Nat.eqb_refl. destruct (Nat.eqb_spec (S s) e); [reflexivity|contradiction].
    + symmetry. apply Hid; try assumption; lia.
  - rewrite (sum_zero (length ds) (fun p => product_op _ _ _ _)).
    2:{ intros p Hp. apply (product_op_zero _ _ _ _ p); [lia|exact Lj|]. intros x y. rewrite Nat.eqb_refl.
        unfold pD. destruct (Nat.eqb_spec p s); [|reflexivity]. destruct (Nat.eqb_spec (S p) e); [lia|reflexivity]. }
    rewrite (sum_single _ s); [|lia|].
    2:{ intros p Hp Hne. apply sum_zero. intros q Hq. destruct (Nat.ltb_spec p q); [|reflexivity].
        apply (product_op_zero _ _ _ _ p); [lia|exact Lj|]. intros x y. rewrite Nat.eqb_refl. unfold pU.
        destruct (Nat.eqb_spec p s); [contradiction|reflexivity]. }
    rewrite (sum_single _ (e - 1)); [|lia|].
    2:{ intros q Hq Hne. destruct (Nat.ltb_spec s q); [|reflexivity].
        apply (product_op_zero _ _ _ _ q); [lia|exact Lj|]. intros x y. rewrite Nat.eqb_refl. unfold pC.
        destruct (Nat.eqb_spec q s); [lia|]. destruct (Nat.eqb_spec (S q) e); [lia|]. rewrite andb_false_r. reflexivity. }
    destruct (Nat.ltb_spec s (e - 1)); [|lia].
    transitivity (pair_op pU pT pC 0 s (e - 1) is js); [ring|].
    apply (product_op_ext_ds ds); [exact His|exact Hjs|]. intros k x y Hk Hx Hy.
    destruct (Nat.eqb_spec k s) as [->|].
    { unfold pU. rewrite Nat.eqb_refl. destruct (Nat.ltb_spec (S s) e); [reflexivity|lia]. }
    destruct (Nat.eqb_spec k (e - 1)) as [->|].
    { unfold pC. beq. reflexivity. }
    destruct (Nat.ltb_spec s k), (Nat.ltb_spec k (e - 1)); cbn [andb].
    + unfold pT. beq. reflexivity.
    + symmetry. apply Hid; try assumption; lia.
    + symmetry. apply Hid; try assumption; lia.
    + lia.
Qed.

End Prod.

Lemma is_identity_get t d x y : is_identity t = true -> dims t = [d; d] -> (x < d)%nat -> (y < d)%nat ->
  get t [x; y] = delta x y.
Proof.
  unfold is_identity. intros E HD Hx Hy. apply andb_true_iff in E. destruct E as (_ & E).
  unfold dim in E. rewrite HD in E. cbn [nth] in E. unfold tensor_eqb in E.
  apply andb_true_iff in E. destruct E as (E & El). apply andb_true_iff in E. destruct E as (_ & Ed).
  apply Nat.eqb_eq in El. rewrite <- (get_eye d x y Hx Hy). unfold get. rewrite HD.
  change (dims (eye d)) with [d; d]. f_equal.
  revert El Ed. generalize (data t) (data (eye d)). intros l. induction l as [|u l IH]; intros [|v m] Hl Hf; cbn in *; try discriminate; [reflexivity|].
  apply andb_true_iff in Hf. destruct Hf as (Hf1 & Hf2). apply keqb_eq in Hf1. subst v. f_equal. apply IH; [lia|exact Hf2].
Qed.

Lemma product_checks ds b O H : hform ds b O ->
  (Nat.eqb (length H) (length O) && forallb (fun k => has_dim (nth k H empty) (dim (site O k) 1)) (seq 0 (length O)) = true) <->
  (length H = length ds /\ forall k, (k < length ds)%nat -> dims (nth k H empty) = [nth k ds 0%nat; nth k ds 0%nat]).
Proof.
  intros HF. rewrite (hf_len _ _ _ HF), andb_true_iff, Nat.eqb_eq, forallb_forall.
  split; intros (H1 & H2); (split; [exact H1|]).
  - intros k Hk. specialize (H2 k). rewrite in_seq in H2. specialize (H2 ltac:(lia)).
    rewrite (hform_dim1 _ _ _ _ HF Hk) in *. apply has_dim_spec; exact H2.
  - intros k Hk. rewrite in_seq in Hk. specialize (H2 k ltac:(lia)).
    rewrite (hform_dim1 _ _ _ _ HF) by lia. unfold has_dim, rank, dim. rewrite H2. cbn [length nth].
    rewrite !Nat.eqb_refl. reflexivity.
Qed.

Lemma add_product_adds ds b O H O' : hform ds b O -> add_product_term O H = Ok O' ->
  (length H = length ds /\ forall k, (k < length ds)%nat -> dims (nth k H empty) = [nth k ds 0%nat; nth k ds 0%nat]) /\
  (exists b', hform ds b' O') /\
  (~ (forall k, (k < length ds)%nat -> is_identity (nth k H empty) = true) ->
   adds ds O O' (product_op 0 (fun k => mat (nth k H empty)))) /\
  ((forall k, (k < length ds)%nat -> is_identity (nth k H empty) = true) ->
   adds ds O O' (fun _ _ => 0)).
Proof.
  intros HF. unfold add_product_term.
  destruct (Nat.eqb (length H) (length O) && _) eqn:Ec; [|discriminate]. cbn [negb].
  apply (product_checks ds b O H HF) in Ec.
  rewrite (hf_len _ _ _ HF) in *. intros E. split; [exact Ec|].
  set (p := fun k => is_identity (nth k H empty)) in *.
  apply Ok_inj in E.
  destruct (skip_up_spec p 0 (length ds)) as (S1 & S2 & S3). destruct (skip_down_spec p (length ds)) as (D1 & D2 & D3).
  set (s := skip_up p 0 (length ds)) in *. set (e := skip_down p (length ds)) in *.
  destruct (lt_dec s (length ds)) as [Hs|Hs].
  - assert (Hps : p s = false) by (apply S3; lia).
    assert (Hse : (s < e)%nat).
    { destruct (le_lt_dec e s); [|assumption]. rewrite D2 in Hps by lia. discriminate. }
    pose proof (pr_thread ds b O H s e HF Hse D1) as HT. cbv zeta in HT. rewrite <- E.
    assert (Hb : exists b', hform ds b' (map (fun j => if Nat.leb s j && Nat.ltb j e then product_site O H s e (if Nat.eqb e (length ds) then 0%nat else 1%nat) j else site O j) (seq 0 (length ds))))
      by (eexists; eapply (thread_hform _ _ _ _ _ _ _ _ _ _ HF HT)).
    split; [exact Hb|]. split.
    + intros _. split; [exact Hb|]. intros is js His Hjs.
      rewrite (thread_opelem _ _ _ _ _ _ _ _ _ _ HF HT) by assumption. f_equal.
      apply (pr_value ds H s e Hse D1); try assumption.
      intros k Hk Hne x y Hx Hy. apply (is_identity_get _ (nth k ds 0%nat)); try assumption.
      * change (p k = true).
        destruct (lt_dec k s); [apply S2; lia|apply D2; lia].
      * apply Ec. exact Hk.
    + intros Hall. specialize (Hall s Hs). unfold p in Hps. congruence.
  - assert (Hall : forall k, (k < length ds)%nat -> p k = true) by (intros k Hk; apply S2; lia).
    assert (He0 : e = 0%nat).
    { destruct e as [|e'] eqn:Ee; [reflexivity|]. specialize (D3 e' eq_refl). rewrite (Hall e') in D3 by lia. discriminate. }
    assert (EO : O' = O).
    { rewrite <- E. apply (nth_ext _ _ empty empty); [rewrite map_length, seq_length; symmetry; apply (hf_len _ _ _ HF)|].
      intros k Hk. rewrite map_length, seq_length in Hk. rewrite nth_map_seq by exact Hk.
      destruct (Nat.ltb_spec k e); [lia|]. rewrite andb_false_r. reflexivity. }
    rewrite EO. split; [exists b; exact HF|]. split.
    + intros Hn. exfalso. apply Hn. exact Hall.
    + intros _. split; [exists b; exact HF|]. intros. ring.
Qed.

Lemma add_product_ok ds b O H : hform ds b O ->
  (length H = length ds /\ forall k, (k < length ds)%nat -> dims (nth k H empty) = [nth k ds 0%nat; nth k ds 0%nat]) ->
  exists O', add_product_term O H = Ok O'.
Proof.
  intros HF Hc. unfold add_product_term. apply (product_checks ds b O H HF) in Hc. rewrite Hc. cbn [negb]. eauto.
Qed.

(** *** local_Hamiltonian_mpo: the fresh MPO with one local term per site *)
Lemma local_H_site_get n k H d a c x y : (2 <= n)%nat -> (k < n)%nat -> dims H = [d; d] ->
  (a < fresh_b n k)%nat -> (c < fresh_b n (S k))%nat -> (x < d)%nat -> (y < d)%nat ->
  dims (local_H_site n k H) = [fresh_b n k; d; d; fresh_b n (S k)] /\ wf (local_H_site n k H) /\
  get (local_H_site n k H) [a; x; y; c] =
  (if Nat.eqb (S k) n then delta a 1 else delta a c) * delta x y + delta a 0 * delta c (fin n k) * mat H x y.
Proof.
  intros Hn Hk HD Ha Hc Hx Hy. unfold local_H_site.
  assert (Hd0 : dim H 0 = d) by (unfold dim; rewrite HD; reflexivity). rewrite Hd0. clear Hd0. unfold mat.
  set (aux := set_block (set_block (set_block (zeros [2; d; d; 2]%nat) 0 1 H) 1 1 (eye d)) 0 0 (eye d)).
  assert (HA : dims aux = [2; d; d; 2]%nat) by reflexivity.
  assert (HG : forall a c, (a < 2)%nat -> (c < 2)%nat -> get aux [a; x; y; c] =
     if Nat.eqb a 0 && Nat.eqb c 0 then delta x y else if Nat.eqb a 1 && Nat.eqb c 1 then delta x y
     else if Nat.eqb a 0 && Nat.eqb c 1 then get H [x; y] else 0).
  { intros a' c' Ha' Hc'. unfold aux.
    do 3 (rewrite (get_set_block _ _ _ _ 2 d d 2) by (reflexivity || assumption)).
    rewrite get_eye by assumption. rewrite get_zeros by (apply in_range_4; assumption). reflexivity. }
  unfold fresh_b in *. change (Nat.eqb (S k) 0) with false in *. cbn [orb] in *.
  rewrite (Nat.add_1_r k).
  destruct (Nat.eqb_spec k 0) as [->|Hk0].
  - destruct (Nat.eqb_spec 1 n); [lia|]. cbn [orb] in *. replace a with 0%nat by lia.
    split; [reflexivity|]. split; [apply wf_mk|].
    unfold slice0, dim. rewrite HA. cbn [nth]. rewrite get_mk by (apply in_range_4; lia). cbn [nth].
    rewrite HG by lia. unfold fin. destruct (Nat.eqb_spec 1 n); [lia|].
    destruct c as [|[|]]; [| |lia]; cbn; unfold delta; cbn; ring.
  - destruct (Nat.eqb_spec k n); [lia|]. cbn [orb] in *. unfold fin.
    destruct (Nat.eqb_spec (S k) n) as [Ek|Ek].
    + replace c with 0%nat by lia. split; [reflexivity|]. split; [apply wf_mk|].
      unfold slice3, dim. rewrite HA. cbn [nth]. rewrite get_mk by (apply in_range_4; lia). cbn [nth].
      rewrite HG by lia. destruct a as [|[|]]; [| |lia]; cbn; unfold delta; cbn; ring.
    + split; [reflexivity|]. split; [apply wf_mk|]. rewrite HG by lia.
      destruct a as [|[|]]; [| |lia]; (destruct c as [|[|]]; [| |lia]); cbn; unfold delta; cbn; ring.
Qed.

Lemma local_Hamiltonian_adds Hs O : Forall (fun H => (0 < dim H 0)%nat) Hs -> local_Hamiltonian_mpo Hs = Ok O ->
  let ds := map (fun H => dim H 0) Hs in
  (exists b, hform ds b O) /\
  forall is js, in_range ds is -> in_range ds js ->
    opelem O is js = sum (length Hs) (fun k => site_op k (mat (nth k Hs empty)) is js).
Proof.
  intros Hp. unfold local_Hamiltonian_mpo. destruct (Nat.ltb_spec (length Hs) 2); [discriminate|].
  destruct (forallb is_square Hs) eqn:Esq; [|discriminate]. intros E. apply Ok_inj in E. cbv zeta.
  set (ds := map (fun H => dim H 0) Hs).
  assert (Ll : length ds = length Hs) by (unfold ds; apply map_length).
  assert (Hpos : Forall (fun d => (0 < d)%nat) ds).
  { unfold ds. apply Forall_map. exact Hp. }
  pose proof (fresh_hform ds ltac:(lia) Hpos) as HF.
  assert (HD : forall k, (k < length ds)%nat -> dims (nth k Hs empty) = [nth k ds 0%nat; nth k ds 0%nat]).
  { intros k Hk. rewrite forallb_forall in Esq. specialize (Esq (nth k Hs empty) ltac:(apply nth_In; lia)).
    destruct (is_square_spec _ Esq) as (d & Hd). unfold ds.
    replace 0%nat with (dim empty 0) at 1 2 by reflexivity. rewrite map_nth with (f := fun H => dim H 0).
    unfold dim. rewrite Hd. reflexivity. }
  assert (HT : thread ds (fresh_b (length ds)) (fresh ds) O 0 0 (fun _ _ _ => 0) (fun _ _ _ => 0) (fun _ _ _ => 0)
                 (fun k => mat (nth k Hs empty))).
  { apply thread_id_nodims; [exact HF|rewrite <- E, map_length, seq_length; symmetry; exact Ll| |].
    - intros k Hk. rewrite <- E, site_map_seq by lia. unfold fresh. rewrite site_map_seq by exact Hk.
      rewrite (clear_site_dims ds k) by lia.
      destruct (local_H_site_get (length Hs) k (nth k Hs empty) (nth k ds 0%nat) 0 0 0 0) as (X1 & X2 & _); try lia.
      + apply HD; exact Hk.
      + unfold fresh_b. destruct (_ || _); lia.
      + unfold fresh_b. destruct (_ || _); lia.
      + apply nth_pos; assumption.
      + apply nth_pos; assumption.
      + split; [rewrite X1, Ll; reflexivity|exact X2].
    - intros k a c x y Hk Ha Hc Hx Hy. rewrite <- E, site_map_seq by lia. unfold fresh. rewrite site_map_seq by exact Hk.
      rewrite clear_site_get by (assumption || lia).
      rewrite Ll in *. destruct (local_H_site_get (length Hs) k (nth k Hs empty) (nth k ds 0%nat) a c x y) as (_ & _ & X3); try assumption.
      apply HD. lia. }
  split; [eexists; apply (thread_hform _ _ _ _ _ _ _ _ _ _ HF HT)|].
  intros is js His Hjs. rewrite (thread_opelem _ _ _ _ _ _ _ _ _ _ HF HT) by assumption.
  rewrite fresh_zero by (assumption || lia).
  assert (Li : length is = length ds) by (apply in_range_length; exact His).
  assert (Lj : length js = length is) by (rewrite Li; apply in_range_length; exact Hjs).
  rewrite Nw_local by exact Lj. rewrite Li, Ll. ring.
Qed.

End Add.
