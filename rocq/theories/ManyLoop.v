(** The loop of mps::simplify over several states *)
From Coq Require Import Reals Lra Bool List Arith ZArith Lia Ring.
From Verif Require Import Scalar ScalarFacts RScal Tensor TensorFacts Spec MpsModel MpsFacts StateFacts StateFacts2 EnvFacts ExpectedFacts MpoSpec CanonSpec CanonModel
  TruncFacts SplitFacts CanonFacts CanonSweep CanonNorm CanonProps CanonTwo SweepModel SweepSpec SweepFacts FormModel FormSpec LFormFacts LFormValue
  SimplifySpec SimplifyModel EckartYoung SimplifyFacts SimplifyStep SimplifyPair SimplifyDouble SimplifySweep SimplifyLoop SimplifyManyModel ManyFacts ManyEnv ManySweep ManyPair.
Import ListNotations.
Local Open Scope K_scope.

Section Loop.
Context {RS : RScal}.
Add Ring Kring : k_ring.
Variable svd : tensor -> tensor * list R * tensor.
Variable flag : R.
Hypothesis Hsvd : svd_contract svd.
Variables (ws : list K) (bras : list mps) (ds : list nat).
Hypothesis Hg : good_bras ws bras ds.
Notation D2 P := (dist2 ds (combo ws bras) (amp P)).
Notation bra := (bra bras).
Notation nb := (length bras).
Notation fits := (fits ds).
Notation envs := (envs bras).
Notation mswept := (mswept ws bras ds).
Notation W := (W ws bras ds).

(** ** normQ2 *)
Lemma fold_bind_sum {A} (g : nat -> result A) (op : nat -> A -> K) (f : nat -> K) l :
  (forall j, In j l -> exists s, g j = Ok s /\ op j s = f j) ->
  forall x, fold_left (fun x j => bind x (fun x => bind (g j) (fun s => Ok (x + op j s)))) l (Ok x) = Ok (fold_left (fun x j => x + f j) l x).
Proof.
  induction l as [|j l IH]; intros H x; cbn [fold_left]; [reflexivity|]. destruct (H j (or_introl eq_refl)) as (s & E & E').
  cbn [bind]. rewrite E. cbn [bind]. rewrite E'. apply IH. intros j' Hj'. apply H. right. exact Hj'.
Qed.

Lemma fold_add_seq (f : nat -> K) n : forall a x, fold_left (fun x j => x + f j) (seq a n) x = x + sum n (fun j => f (a + j)%nat).
Proof.
  induction n as [|n IH]; intros a x; [cbn; ring|]. cbn [seq fold_left]. rewrite IH, sum_S_l.
  rewrite (sum_ext n (fun j => f (S a + j)%nat) (fun j => f (a + S j)%nat)) by (intros; f_equal; lia). replace (a + 0)%nat with a by lia. ring.
Qed.

(** A Hermitian matrix: the diagonal and twice the real parts above it *)
Lemma hermitian_sum (h : nat -> nat -> K) n : (forall i j, (i < n)%nat -> (j < n)%nat -> kconj (h i j) = h j i) ->
  sum n (fun i => sum (n - i) (fun j => if Nat.eqb i (i + j) then h i (i + j)%nat else rinj (2 * kre (h i (i + j)%nat))%R)) = sum n (fun i => sum n (fun j => h i j)).
Proof.
  intros H.
  transitivity (sum n (fun i => sum (n - i) (fun j => if Nat.eqb i (i + j) then h i (i + j)%nat else h i (i + j)%nat + h (i + j)%nat i))).
  { apply sum_ext. intros i Hi. apply sum_ext. intros j Hj. destruct (Nat.eqb i (i + j)); [reflexivity|].
    rewrite <- (H i (i + j)%nat) by lia. apply twice_re. }
  clear H. revert h. induction n as [|n IH]; intros h; [reflexivity|].
  set (g := fun (h : nat -> nat -> K) (i j : nat) => if Nat.eqb i (i + j) then h i (i + j)%nat else h i (i + j)%nat + h (i + j)%nat i).
  change (sum (S n) (fun i => sum (S n - i) (g h i)) = sum (S n) (fun i => sum (S n) (fun j => h i j))).
  rewrite sum_S_l. rewrite Nat.sub_0_r, (sum_S_l n (g h 0%nat)).
  rewrite (sum_ext n (fun i => sum (S n - S i) (g h (S i))) (fun i => sum (n - i) (g (fun i j => h (S i) (S j)) i))) by (intros; apply sum_ext; intros; reflexivity).
  unfold g at 3. rewrite (IH (fun i j => h (S i) (S j))). rewrite (sum_S_l n (fun i => sum (S n) _)), (sum_S_l n (fun j => h 0%nat j)).
  rewrite (sum_ext n (fun i => sum (S n) (fun j => h (S i) j)) (fun i => h (S i) 0%nat + sum n (fun j => h (S i) (S j)))) by (intros; apply sum_S_l).
  rewrite sum_add. unfold g. cbn [Nat.add Nat.eqb]. rewrite sum_add. ring.
Qed.

Lemma bra_inner i j : (i < nb)%nat -> (j < nb)%nat -> scprod (nth i bras []) (nth j bras []) 1 = Ok (inner ds (amp (nth i bras [])) (amp (nth j bras []))).
Proof.
  intros Hi Hj. destruct (bra_ok ws bras ds Hg i Hi) as (L1 & N1 & D1). destruct (bra_ok ws bras ds Hg j Hj) as (L2 & N2 & D2).
  unfold bra in *. rewrite scprod_correct; [rewrite D1; reflexivity|split; [exact N1|exists 1%nat; split; [lia|exact L1]]|split; [exact N2|exists 1%nat; split; [lia|exact L2]]|congruence].
Qed.

Lemma normQ2_ok : many_normQ2 ws bras = Ok W.
Proof.
  set (h := fun i j => inner ds (amp (nth i bras [])) (amp (nth j bras [])) * kconj (nth i ws 0) * nth j ws 0).
  unfold many_normQ2.
  assert (E : forall l x, (forall i, In i l -> (i < nb)%nat) ->
    fold_left (fun x i => fold_left (fun x j => bind x (fun x => bind (scprod (nth i bras []) (nth j bras []) 1) (fun s =>
              let y := (s * kconj (nth i ws 0%K) * nth j ws 0%K)%K in
              Ok (if Nat.eqb i j then (x + y)%K else (x + rinj (2 * kre y)%R)%K)))) (seq i (nb - i)) x) l (Ok x) =
    Ok (fold_left (fun x i => x + sum (nb - i) (fun j => if Nat.eqb i (i + j) then h i (i + j)%nat else rinj (2 * kre (h i (i + j)%nat))%R)) l x)).
  { induction l as [|i l IH]; intros x Hl; [reflexivity|]. cbn [fold_left]. pose proof (Hl i (or_introl eq_refl)) as Hi.
    transitivity (fold_left (fun x i => fold_left (fun x j => bind x (fun x => bind (scprod (nth i bras []) (nth j bras []) 1) (fun s =>
              let y := (s * kconj (nth i ws 0%K) * nth j ws 0%K)%K in
              Ok (if Nat.eqb i j then (x + y)%K else (x + rinj (2 * kre y)%R)%K)))) (seq i (nb - i)) x) l
       (Ok (x + sum (nb - i) (fun j => if Nat.eqb i (i + j) then h i (i + j)%nat else rinj (2 * kre (h i (i + j)%nat))%R)))).
    - f_equal. rewrite <- (fold_add_seq (fun j => if Nat.eqb i j then h i j else rinj (2 * kre (h i j))%R)).
      assert (Hq : forall j, In j (seq i (nb - i)) -> (j < nb)%nat) by (intros j Hj; apply in_seq in Hj; lia).
      revert x Hq. generalize (seq i (nb - i)). induction l0 as [|j l0 IH0]; intros x Hq; [reflexivity|]. cbn [fold_left bind].
      rewrite bra_inner by (try exact Hi; apply Hq; left; reflexivity). cbn [bind]. cbv zeta. fold (h i j).
      rewrite <- IH0 by (intros j' Hj'; apply Hq; right; exact Hj'). destruct (Nat.eqb i j); reflexivity.
    - apply IH. intros i' Hi'. apply Hl. right. exact Hi'. }
  rewrite E by (intros i Hi; apply in_seq in Hi; lia). cbn [bind]. f_equal.
  rewrite (fold_add_seq (fun i => sum (nb - i) _)). cbn [Nat.add]. rewrite hermitian_sum.
  - unfold SimplifyLoop.W. rewrite <- (kre_rinj (weight ds (combo ws bras))). rewrite <- norm_combo. f_equal.
    transitivity (sum nb (fun i => sum nb (fun j => h i j))); [ring|]. apply sum_ext. intros i Hi. apply sum_ext. intros j Hj. unfold h. ring.
  - intros i j Hi Hj. unfold h. rewrite !kconj_mul, kconj_inv, inner_conj. ring.
Qed.

(** ** The first environments *)
Lemma fits_length P : fits P -> length P = length ds.
Proof. intros (_ & H). rewrite <- H. symmetry. apply length_pdims. Qed.

Lemma initialize_ok P z : fits P -> (2 <= length P)%nat -> z <> 0%Z ->
  exists A, initialize_matrices bras P z = Ok A /\ rows_ok ds A /\ envs (last_of (negb (0 <? z)%Z) (length P)) P (matrix A).
Proof.
  intros Hf HL Hz. pose proof (fits_length P Hf) as Hl. unfold initialize_matrices. rewrite (many_L_ok ws bras ds Hg), <- Hl.
  set (A0 := repeat (repeat empty nb) (length P + 2)).
  assert (Hemp : forall r i, is_empty (matrix A0 r i) = true).
  { intros r i. unfold matrix, A0. destruct (Nat.lt_ge_cases r (length P + 2)) as [H|H].
    - rewrite (nth_indep _ [] (repeat empty nb)) by (rewrite repeat_length; exact H). rewrite nth_repeat.
      destruct (Nat.lt_ge_cases i nb) as [H'|H']; [rewrite nth_repeat; reflexivity|rewrite nth_overflow by (rewrite repeat_length; exact H'); reflexivity].
    - rewrite (nth_overflow (repeat _ _)) by (rewrite repeat_length; exact H). destruct i; reflexivity. }
  assert (Hr0 : rows_ok ds A0) by (unfold rows_ok, A0; rewrite repeat_length; lia).
  destruct (Z.ltb_spec 0 z) as [Hp|Hp].
  - destruct (init_right ws bras ds Hg _ matrix (fun A k => update_matrices bras A k (site P k) (-1)) (rows_ok ds) P) with (j := length P) (s := A0) as (H1 & H2 & H3);
      [|exact Hf|lia|exact Hr0|intros i _; apply Hemp|apply (renvs_nil ws bras ds Hg); [exact Hf|intros i _; apply Hemp]|].
    + intros A k HA Hk. destruct (matrix_update bras A k (site P k) false) as (U1 & U2); [unfold rows_ok in HA; lia|].
      split; [exact U1|unfold rows_ok in *; cbn [sgn] in U2; congruence].
    + eexists. split; [reflexivity|]. split; [exact H2|]. cbn [negb last_of]. split; [apply lenvs_nil; exact H3|]. apply (renvs_weaken bras 0); [lia|exact H1].
  - destruct (Z.ltb_spec z 0) as [Hn|Hn]; [|lia].
    destruct (init_left ws bras ds Hg _ matrix (fun A k => update_matrices bras A k (site P k) 1) (rows_ok ds) P) with (j := length P) (s := A0) as (H1 & H2 & H3);
      [|exact Hf|lia|exact Hr0|intros i _; apply Hemp|rewrite Nat.sub_diag; apply lenvs_nil; intros i _; apply Hemp|].
    + intros A k HA Hk. destruct (matrix_update bras A k (site P k) true) as (U1 & U2); [unfold rows_ok in HA; lia|].
      split; [exact U1|unfold rows_ok in *; cbn [sgn] in U2; congruence].
    + rewrite Nat.sub_diag in *. eexists. split; [reflexivity|]. split; [exact H2|]. cbn [negb last_of]. split.
      * apply (lenvs_weaken bras (length P)); [lia|exact H1].
      * replace (S (length P - 1)) with (length P) by lia. apply (renvs_nil ws bras ds Hg); assumption.
Qed.

(** ** The loop *)
Lemma scalar_product_ok d P P' A : fits P' -> length P' = length P -> mswept d P P' (matrix A) -> (0 < length P)%nat ->
  scalar_product ws bras A (last_of d (length P)) = rinj (frob2 (site P' (last_of d (length P)))).
Proof.
  intros Hf Hl (_ & _ & Hc & Hop & _ & Hin) HL. set (E := last_of d (length P)) in *.
  assert (HE : (E < length P')%nat) by (rewrite Hl; unfold E, last_of; destruct d; lia).
  rewrite <- (rinj_conj (frob2 _)), <- (opt_overlap ws bras E P' (proj1 Hf) HE Hop). unfold scalar_product, overlap.
  rewrite (fold_add_seq (fun i => elem0 (prop_close (matrix A (E + 1) i)) * nth i ws 0)). cbn [Nat.add]. rewrite sum_conj. destruct Hf as (_ & ->).
  transitivity (sum nb (fun i => elem0 (prop_close (matrix A (E + 1) i)) * nth i ws 0)); [ring|]. apply sum_ext. intros i Hi.
  rewrite kconj_mul, kconj_inv, inner_conj. replace (E + 1)%nat with (S E) by lia. destruct (Hin i Hi) as (-> & _). unfold LFormFacts.bra. ring.
Qed.

(** What is known of the state after a sweep in direction d *)
Definition mdone (d : bool) (L : nat) (P' : mps) (n : R) : Prop :=
  let E := last_of d L in
  fits P' /\ length P' = L /\ canonical_at E P' /\ opt ws bras E P' /\ n = frob2 (site P' E).

Lemma mdone_facts d L P' n : (0 < L)%nat -> mdone d L P' n ->
  weight ds (amp P') = n /\ overlap ws bras P' = rinj n /\ D2 P' = (W - n)%R /\ D2 P' = Rabs (W + n - 2 * n).
Proof.
  intros HL ((Ho & Hd) & Hl & Hc & Hop & Hn). set (E := last_of d L) in *.
  assert (HE : (E < length P')%nat) by (rewrite Hl; unfold E, last_of; destruct d; lia).
  pose proof (canonical_weight ws bras ds Hg E P' Ho Hd HE Hc) as Hw. pose proof (opt_overlap ws bras E P' Ho HE Hop) as Hov.
  pose proof (opt_dist ws bras ds Hg E P' Ho Hd HE Hc Hop) as Hdd. rewrite <- Hn in *. change (weight ds (combo ws bras)) with W in Hdd.
  repeat (split; [assumption|]). replace (W + n - 2 * n)%R with (W - n)%R by ring. rewrite <- Hdd. symmetry. apply Rabs_pos_eq. apply weight_nonneg.
Qed.

Lemma mdone_best d L P' n T : (0 < L)%nat -> mdone d L P' n -> wf T -> dims T = dims (site P' (last_of d L)) ->
  (D2 P' <= D2 (replace_nth (last_of d L) T P'))%R.
Proof.
  intros HL ((Ho & Hd) & Hl & Hc & Hop & Hn) HwT HdT.
  apply (done_best ws bras ds Hg d L P' n (sqrt (Rabs (1 - n / W))) T HL); [|exact HwT|exact HdT]. repeat split; try assumption; apply Ho || apply Hc.
Qed.

Section Generic.
Variable sweep : Z -> mps -> list (list tensor) -> result (mps * list (list tensor) * tensor).
Variables (Pre Small : mps -> Prop) (Rel : mps -> mps -> Prop).
Hypothesis Rel_trans : forall P1 P2 P3, Rel P1 P2 -> Rel P2 P3 -> Rel P1 P3.
Hypothesis Hsweep : forall d z P A, (0 <? z)%Z = d -> fits P -> (2 <= length P)%nat -> rows_ok ds A -> envs (last_of (negb d) (length P)) P (matrix A) -> Pre P ->
  exists P' A', sweep z P A = Ok (P', A', site P' (last_of d (length P))) /\ rows_ok ds A' /\ mswept d P P' (matrix A') /\ Pre P' /\ Rel P P' /\ (Small P -> Small P') /\
    (Small P -> canonical_at (last_of (negb d) (length P)) P -> (D2 P' <= D2 P)%R).
Variable tolerance : R.

Lemma many_loop_S normQ2 normalize n P A sense err : many_loop tolerance ws bras sweep normQ2 normalize (S n) P A sense err =
      bind (sweep sense P A) (fun '(P, A, Pk) =>
        let last := (if (0 <? sense)%Z then many_L bras - 1 else 0)%nat in
        let scp := kre (scalar_product ws bras A last) in
        let normP2 := kre (tensor_scprod Pk Pk) in
        let olderr := err in
        let err := Rabs (normQ2 + normP2 - 2 * scp) in
        if many_stop tolerance normQ2 olderr err then
          if normalize then
            if Req_EM_T normP2 0 then Abort
            else Ok (replace_nth last (tscale (rinj (/ sqrt normP2)%R) Pk) P, (- sense)%Z, err)
          else Ok (P, sense, err)
        else many_loop tolerance ws bras sweep normQ2 normalize n P A (- sense)%Z err).
Proof. reflexivity. Qed.

Lemma many_loop_ok n : forall d z P A err0, z <> 0%Z -> (0 <? z)%Z = d -> fits P -> (2 <= length P)%nat -> rows_ok ds A ->
  envs (last_of (negb d) (length P)) P (matrix A) -> Pre P ->
  exists P' nn z' (conv : bool), (z' = z \/ z' = - z)%Z /\ let E := last_of (0 <? z')%Z (length P) in
    many_loop tolerance ws bras sweep W false (S n) P A z err0 = Ok (P', (if conv then z' else - z')%Z, D2 P') /\
    many_loop tolerance ws bras sweep W true (S n) P A z err0 =
      (if conv then if Req_EM_T nn 0 then Abort else Ok (replace_nth E (tscale (rinj (/ sqrt nn)%R) (site P' E)) P', (- z')%Z, D2 P')
       else Ok (P', (- z')%Z, D2 P')) /\
    mdone (0 <? z')%Z (length P) P' nn /\ (n = 0%nat -> z' = z /\ conv = many_stop tolerance W err0 (D2 P')) /\ Pre P' /\ Rel P P' /\
    (Small P -> canonical_at (last_of (negb d) (length P)) P -> (D2 P' <= D2 P)%R).
Proof.
  induction n as [|n IH]; intros d z P A err0 Hz Hd Hf HL HA HE HP;
    destruct (Hsweep d z P A Hd Hf HL HA HE HP) as (P1 & A1 & E & HA1 & Hsw & HP1 & HR1 & HS1 & Hmono);
    pose proof Hsw as (Hf1 & Hl1 & Hc1 & Hop1 & HE1 & _);
    set (nn := frob2 (site P1 (last_of d (length P))));
    assert (Hdone : mdone d (length P) P1 nn) by (repeat split; auto; apply Hf1 || apply Hc1);
    destruct (mdone_facts d (length P) P1 nn ltac:(lia) Hdone) as (_ & _ & _ & HD);
    pose proof (scalar_product_ok d P P1 A1 Hf1 Hl1 Hsw ltac:(lia)) as Hscp; fold nn in Hscp;
    rewrite !many_loop_S, !E; cbn [bind]; rewrite (many_L_ok ws bras ds Hg), <- (fits_length P Hf);
    replace (if (0 <? z)%Z then (length P - 1)%nat else 0%nat) with (last_of d (length P)) by (rewrite Hd; destruct d; reflexivity);
    rewrite Hscp, tensor_scprod_self, !kre_rinj; fold nn; cbv zeta; rewrite <- HD;
    (destruct (many_stop tolerance W err0 (D2 P1)) eqn:Est;
     [exists P1, nn, z, true; rewrite Hd; split; [left; reflexivity|]; cbv zeta; repeat (split; [reflexivity || assumption || (intros _; auto)|]); exact Hmono|]).
  - exists P1, nn, z, false. rewrite Hd. split; [left; reflexivity|]. cbv zeta. cbn [many_loop]. repeat (split; [reflexivity || assumption || (intros _; auto)|]). exact Hmono.
  - destruct (IH (negb d) (- z)%Z P1 A1 (D2 P1)) as (P' & n' & z' & conv & Hz' & E1 & E2 & H1 & _ & H2 & H3 & H4);
      [lia|destruct d; destruct (Z.ltb_spec 0 z), (Z.ltb_spec 0 (- z)); cbn; (congruence || lia)|exact Hf1|lia|exact HA1|rewrite negb_involutive, Hl1; exact HE1|exact HP1|].
    rewrite negb_involutive, Hl1 in *. exists P', n', z', conv. split; [lia|]. cbv zeta. split; [exact E1|]. split; [exact E2|].
    split; [exact H1|]. split; [discriminate|]. split; [exact H2|]. split; [apply (Rel_trans P P1 P'); assumption|].
    intros HS Hc. eapply Rle_trans; [apply H4; [apply HS1; exact HS|exact Hc1]|apply Hmono; assumption].
Qed.

Lemma simplify_with_ok P sense sweeps : fits P -> (2 <= length P)%nat -> sense <> 0%Z -> Pre P ->
  exists P' nn z' (conv : bool), (z' = sense \/ z' = - sense)%Z /\ let E := last_of (0 <? z')%Z (length P) in
    simplify_with tolerance ws bras sweep P sense sweeps false = Ok (P', (if conv then z' else - z')%Z, D2 P') /\
    simplify_with tolerance ws bras sweep P sense sweeps true =
      (if conv then if Req_EM_T nn 0 then Abort else Ok (replace_nth E (tscale (rinj (/ sqrt nn)%R) (site P' E)) P', (- z')%Z, D2 P')
       else Ok (P', (- z')%Z, D2 P')) /\
    mdone (0 <? z')%Z (length P) P' nn /\ (sweeps = 1%nat -> z' = sense /\ conv = many_stop tolerance W (W * 10)%R (D2 P')) /\ Pre P' /\ Rel P P' /\
    (Small P -> canonical_at (last_of (negb (0 <? sense)%Z) (length P)) P -> (D2 P' <= D2 P)%R).
Proof.
  intros Hf HL Hs HP. pose proof (fits_length P Hf) as Hl. unfold simplify_with. pose proof (bras_pos ws bras ds Hg) as Hb.
  destruct (Nat.eqb_spec nb 0) as [|_]; [lia|]. rewrite (many_L_ok ws bras ds Hg). destruct (Nat.eqb_spec (length ds) 1) as [|_]; [lia|].
  rewrite normQ2_ok. cbn [bind]. destruct (initialize_ok P sense Hf HL Hs) as (A & EA & HA & HE). rewrite EA. cbn [bind].
  destruct (if Nat.ltb sweeps 1 then 1%nat else sweeps) as [|n] eqn:En; [destruct (Nat.ltb_spec sweeps 1); lia|].
  destruct (many_loop_ok n (0 <? sense)%Z sense P A (W * 10)%R Hs eq_refl Hf HL HA HE HP) as (P' & nn & z' & conv & H1 & H2 & H3 & H4 & H5 & H6). exists P', nn, z', conv.
  split; [exact H1|]. cbv zeta in *. repeat (split; [assumption|]). split; [|exact H6]. intros ->. apply H5. cbn in En. lia.
Qed.
End Generic.

(** ** One-site sweeps *)
Definition one_rel (P P' : mps) : Prop := forall j, (dim (site P' j) 0 <= dim (site P j) 0)%nat.

Lemma simplify_many_ok tolerance P sense sweeps : fits P -> (2 <= length P)%nat -> sense <> 0%Z -> overlap ws bras P <> 0 ->
  exists P' nn z' (conv : bool), (z' = sense \/ z' = - sense)%Z /\ let E := last_of (0 <? z')%Z (length P) in
    simplify_many svd flag tolerance ws bras P sense sweeps false = Ok (P', (if conv then z' else - z')%Z, D2 P') /\
    simplify_many svd flag tolerance ws bras P sense sweeps true =
      (if conv then if Req_EM_T nn 0 then Abort else Ok (replace_nth E (tscale (rinj (/ sqrt nn)%R) (site P' E)) P', (- z')%Z, D2 P')
       else Ok (P', (- z')%Z, D2 P')) /\
    mdone (0 <? z')%Z (length P) P' nn /\ (sweeps = 1%nat -> z' = sense /\ conv = many_stop tolerance W (W * 10)%R (D2 P')) /\ overlap ws bras P' <> 0 /\ one_rel P P' /\
    (canonical_at (last_of (negb (0 <? sense)%Z) (length P)) P -> (D2 P' <= D2 P)%R).
Proof.
  intros Hf HL Hs Hn.
  destruct (simplify_with_ok (many_sweep svd flag ws bras) (fun P => overlap ws bras P <> 0) (fun _ => True) one_rel) with (tolerance := tolerance) (P := P) (sense := sense) (sweeps := sweeps)
    as (P' & nn & z' & conv & H1 & H2 & H3 & H4 & H4' & H5 & H6 & H7); try assumption.
  - intros P1 P2 P3 H1 H2 j. eapply Nat.le_trans; [apply H2|apply H1].
  - clear P Hf HL Hs Hn. intros d z P A Hd Hf HL HA HE Hn.
    destruct (many_sweep_ok svd flag Hsvd ws bras ds Hg d (length P - 1) (last_of (negb d) (length P)) P A empty Hf) as (P' & A' & E & H1 & H2 & H3 & H4 & H5);
      [destruct d; cbn; lia|exact HA|exact HE|destruct d; cbn; intros; lia|exact Hn|].
    exists P', A'. split; [|repeat (split; [assumption|]); split; [auto|]; intros _ Hc; apply H5; apply (behind_both d) in Hc; apply Hc].
    unfold many_sweep. rewrite (many_L_ok ws bras ds Hg), <- (fits_length P Hf), Hd. rewrite <- E.
    destruct d; cbn [sgn path negb last_of]; replace (S (length P - 1)) with (length P) by lia; reflexivity.
  - exists P', nn, z', conv. repeat (split; [assumption|]). intros Hc. apply H7; auto.
Qed.

(** ** Two-site sweeps *)
Definition two_rel (Dmax : Z) (tol : R) (P P' : mps) : Prop := ((0 < Dmax)%Z -> bonds_le Dmax P') /\ (overlap ws bras P <> 0 -> overlap ws bras P' <> 0) /\
  (exact_tol flag tol -> exists kk, (kk = 0 \/ kk = length P' - 2)%nat /\ pbest ws bras ds Dmax kk P').

Lemma simplify_many2_ok tolerance Dmax tol P sense sweeps : fits P -> (2 <= length P)%nat -> sense <> 0%Z -> nz2 flag ws bras tol P ->
  exists P' nn z' (conv : bool), (z' = sense \/ z' = - sense)%Z /\ let E := last_of (0 <? z')%Z (length P) in
    simplify_many2 svd flag tolerance ws bras P Dmax tol sense sweeps false = Ok (P', (if conv then z' else - z')%Z, D2 P') /\
    simplify_many2 svd flag tolerance ws bras P Dmax tol sense sweeps true =
      (if conv then if Req_EM_T nn 0 then Abort else Ok (replace_nth E (tscale (rinj (/ sqrt nn)%R) (site P' E)) P', (- z')%Z, D2 P')
       else Ok (P', (- z')%Z, D2 P')) /\
    mdone (0 <? z')%Z (length P) P' nn /\ (sweeps = 1%nat -> z' = sense /\ conv = many_stop tolerance W (W * 10)%R (D2 P')) /\ two_rel Dmax tol P P' /\
    (exact_tol flag tol -> small Dmax P -> canonical_at (last_of (negb (0 <? sense)%Z) (length P)) P -> (D2 P' <= D2 P)%R).
Proof.
  intros Hf HL Hs Hn.
  destruct (simplify_with_ok (two_sweep svd flag ws bras Dmax tol) (nz2 flag ws bras tol) (fun P => exact_tol flag tol /\ small Dmax P) (two_rel Dmax tol)) with (tolerance := tolerance) (P := P) (sense := sense) (sweeps := sweeps)
    as (P' & nn & z' & conv & H1 & H2 & H3 & H4 & H4' & H5 & H6 & H7); try assumption.
  - intros P1 P2 P3 (_ & H1 & _) (H2 & H3 & H4). split; [exact H2|split; auto].
  - clear P Hf HL Hs Hn. intros d z P A Hd Hf HL HA HE Hn. pose proof (fits_length P Hf) as Hl.
    assert (Hag : agree2 (if d then last_of (negb d) (length P) else (last_of (negb d) (length P) - 1)%nat) P P) by (split; auto).
    destruct (two_sweep_ok svd flag Hsvd ws bras ds Hg Dmax tol d (length P - 2) (last_of (negb d) (length P)) P P A Hf eq_refl Hag) as (P' & A' & E & Hf' & Hl' & HA' & HE' & Hc' & Hop' & Hn' & _ & Hbd & Hmono & Hke & Hbest);
      [destruct d; cbn; lia|exact HA|exact HE|destruct d; cbn; intros; lia|exact Hn|].
    set (e := last_of d (length P)) in *. assert (He : (e < length P)%nat) by (unfold e; destruct d; cbn; lia).
    destruct (matrix_update bras A' e (site P' e) d) as (U1 & U2); [unfold rows_ok in HA'; lia|].
    assert (Hbl : (0 < Dmax)%Z -> bonds_le Dmax P').
    { intros HD j Hj. rewrite Hl' in Hj. apply Hbd; [exact HD|exact Hj|]. destruct d; cbn; lia. }
    exists P', (update_matrices bras A' e (site P' e) (sgn d)). split; [|split; [unfold rows_ok in *; congruence|split; [|split; [exact Hn'|split; [split; [assumption|split; [assumption|intros He1; exists (if d then (length P - 2)%nat else 0%nat); split; [rewrite Hl'; destruct d; auto|exact (Hbest He1)]]]|split]]]]].
    + unfold two_sweep. cbv zeta. rewrite (many_L_ok ws bras ds Hg), <- Hl, Hd.
      replace (if d then (length P - 1)%nat else 0%nat) with e by (unfold e; destruct d; reflexivity).
      replace (if d then 1%Z else (-1)%Z) with (sgn d) by (destruct d; reflexivity).
      replace (if (0 <? sgn d)%Z then seq 0 (length P - 1) else rev (seq 1 (length P - 1))) with (path2 d (last_of (negb d) (length P)) (length P - 2)).
      2:{ destruct d; cbn [sgn path2 negb last_of]; replace (S (length P - 2)) with (length P - 1)%nat by lia; reflexivity. }
      refine (eq_trans (f_equal (fun x => bind x _) E) _). cbn [bind]. rewrite site_at_nat by lia. reflexivity.
    + destruct (envs_end ws bras ds Hg d P' P' (matrix A') (matrix (update_matrices bras A' e (site P' e) (sgn d)))) as (E1 & E2); rewrite ?Hl'; fold e; auto.
      unfold mswept. fold e. rewrite Hl' in E1, E2. fold e in E1, E2. repeat (split; [assumption|]). exact E2.
    + intros (He1 & HS). split; [exact He1|]. destruct (Z.leb_spec Dmax 0); [left; lia|right; apply Hbl; lia].
    + intros (He1 & HS) Hc. apply Hmono; [exact He1|exact HS|]. apply (behind_both d) in Hc. apply Hc.
  - exists P', nn, z', conv. repeat (split; [assumption|]). intros He HS Hc. apply H7; auto.
Qed.
End Loop.
