(** * C50: minimize() with states the result must be orthogonal to, and with a constraint *)
From Coq Require Import Reals Lra Bool List Arith ZArith Lia Ring.
From Verif Require Import Scalar ScalarFacts RScal Tensor TensorFacts Spec MpsModel MpsFacts StateFacts MpoSpec MpoFacts CanonSpec CanonModel
  CanonSweep FormModel FormSpec LFormFacts SimplifySpec SimplifyModel SimplifyFacts SimplifyStep SimplifyLoop MinimizerModel MinLive MinimizeSpec MinLocal MinStep MinSweep MinLoop
  MinOrtho MinOrthoRun Properties_Canon Properties_Form Properties_Minimize SvdExist EigsExist RealInst Witness SparseFacts QFormFacts.
Import ListNotations.
Local Open Scope K_scope.

Section Projector.
Context {RS : RScal}.
Add Ring Kring : k_ring.

Lemma orthogonalize_cons T o os : orthogonalize T (o :: os) = orthogonalize (orthogonalize T [o]) os.
Proof. reflexivity. Qed.
Lemma orthogonalize_app T a c : orthogonalize T (a ++ c) = orthogonalize (orthogonalize T a) c.
Proof. unfold orthogonalize. apply fold_left_app. Qed.
Lemma ortho_length T o n : length (data T) = n -> length (data o) = n -> length (data (orthogonalize T [o])) = n.
Proof. intros H1 H2. rewrite (proj1 (ortho_data T o n H1 H2)), map_length, seq_length. reflexivity. Qed.
Lemma orthos_length os n : forall T, length (data T) = n -> Forall (fun o => length (data o) = n) os -> length (data (orthogonalize T os)) = n.
Proof.
  induction os as [|o os IH]; intros T HT HF; [exact HT|]. rewrite orthogonalize_cons. apply IH; [|exact (Forall_inv_tail HF)]. apply ortho_length; [exact HT|exact (Forall_inv HF)].
Qed.

Lemma scprod_ortho x T o n : length (data x) = n -> length (data T) = n -> length (data o) = n ->
  tensor_scprod x (orthogonalize T [o]) = tensor_scprod x T - tensor_scprod o T * tensor_scprod x o.
Proof.
  intros Hx HT Ho. rewrite !scprod_sum by (rewrite ?(ortho_length T o n HT Ho); congruence). rewrite Hx, Ho.
  rewrite (sum_ext n _ (fun r => kconj (vec x r) * vec T r - sum n (fun s => kconj (vec o s) * vec T s) * (kconj (vec x r) * vec o r))).
  - rewrite sum_sub, <- sum_mul_l. reflexivity.
  - intros r Hr. unfold vec at 2. rewrite (proj1 (ortho_data T o n HT Ho)), (nth_map_seq (pr n (vec o) (vec T))) by exact Hr. unfold pr. ring.
Qed.

Lemma scprod_orthos x os n : length (data x) = n -> forall T, length (data T) = n -> Forall (fun o => length (data o) = n /\ tensor_scprod x o = 0) os ->
  tensor_scprod x (orthogonalize T os) = tensor_scprod x T.
Proof.
  intros Hx. induction os as [|o os IH]; intros T HT HF; [reflexivity|]. rewrite orthogonalize_cons. destruct (Forall_inv HF) as (H1 & H2).
  rewrite IH; [|apply ortho_length; assumption|exact (Forall_inv_tail HF)]. rewrite (scprod_ortho x T o n), H2 by assumption. ring.
Qed.

Lemma ortho_fixed T o n : length (data T) = n -> length (data o) = n -> tensor_scprod o T = 0 -> orthogonalize T [o] = T.
Proof.
  intros HT Ho E. destruct (ortho_data T o n HT Ho) as (D1 & D2). destruct (orthogonalize T [o]) as [d1 l1], T as [d2 l2]. cbn [data dims] in *. subst d1 l1. f_equal.
  apply (nth_ext _ _ 0 0); [rewrite map_length, seq_length; congruence|]. intros r Hr. rewrite map_length, seq_length in Hr.
  rewrite (nth_map_seq (pr n (vec o) (vec (mkT d2 l2)))) by exact Hr. unfold pr. rewrite scprod_sum, Ho in E by (cbn [data]; lia). rewrite E. unfold vec. cbn [data]. ring.
Qed.

(** orthonormal tensors of n elements *)
Definition orthonormal (n : nat) (os : list tensor) : Prop :=
  (forall o, In o os -> length (data o) = n) /\
  forall i j, (i < length os)%nat -> (j < length os)%nat -> tensor_scprod (nth i os empty) (nth j os empty) = delta i j.

(** orthogonalize(T, os), for orthonormal os: the result is orthogonal to all of them, whatever was so stays as it
    is, hence doing it twice is doing it once. *)
Theorem C50_projector n os T : orthonormal n os -> length (data T) = n ->
  (forall o, In o os -> tensor_scprod o (orthogonalize T os) = 0) /\
  ((forall o, In o os -> tensor_scprod o T = 0) -> orthogonalize T os = T) /\
  orthogonalize (orthogonalize T os) os = orthogonalize T os.
Proof.
  intros (Hl & Hd) HT.
  assert (HF : Forall (fun o => length (data o) = n) os) by (apply Forall_forall; exact Hl).
  assert (A1 : forall o, In o os -> tensor_scprod o (orthogonalize T os) = 0).
  { intros o Ho. destruct (In_nth os o empty Ho) as (i & Hi & <-). set (o := nth i os empty) in *.
    rewrite <- (firstn_skipn i os) at 1. assert (Es : skipn i os = o :: skipn (S i) os).
    { unfold o. clear -Hi. revert i Hi. induction os as [|x os IH]; intros [|i] Hi; cbn in *; try lia; [reflexivity|]. apply IH. lia. }
    rewrite Es, orthogonalize_app, orthogonalize_cons.
    set (T1 := orthogonalize T (firstn i os)).
    assert (HT1 : length (data T1) = n) by (apply orthos_length; [exact HT|]; apply Forall_forall; intros q Hq; apply Hl; rewrite <- (firstn_skipn i os); apply in_or_app; left; exact Hq).
    rewrite (scprod_orthos o (skipn (S i) os) n (Hl o Ho)).
    - rewrite (scprod_ortho o T1 o n) by auto. assert (Eoo : tensor_scprod o o = 1) by (unfold o; rewrite Hd by exact Hi; unfold delta; rewrite Nat.eqb_refl; reflexivity). rewrite Eoo. ring.
    - apply ortho_length; auto.
    - apply Forall_forall. intros q Hq. split; [apply Hl; rewrite <- (firstn_skipn (S i) os); apply in_or_app; right; exact Hq|].
      destruct (In_nth _ q empty Hq) as (j & Hj & <-). rewrite skipn_length in Hj.
      assert (En : nth j (skipn (S i) os) empty = nth (S i + j) os empty).
      { clear. revert os j. generalize (S i). induction n as [|m IH]; intros [|x os] j; try reflexivity; [cbn [skipn]; destruct j; reflexivity|]. cbn [skipn plus nth]. apply IH. }
      rewrite En. unfold o. rewrite Hd by lia. unfold delta. destruct (Nat.eqb_spec i (S i + j)); [lia|reflexivity]. }
  assert (A2 : forall T, length (data T) = n -> (forall o, In o os -> tensor_scprod o T = 0) -> orthogonalize T os = T).
  { clear -Hl. induction os as [|o os IH]; intros T HT E; [reflexivity|]. rewrite orthogonalize_cons, (ortho_fixed T o n HT); [|apply Hl; left; reflexivity|apply E; left; reflexivity].
    apply IH; [|exact HT|]; intros q Hq; [apply Hl|apply E]; right; exact Hq. }
  split; [exact A1|]. split; [apply A2; exact HT|]. apply A2; [apply orthos_length; assumption|exact A1].
Qed.

(** For one tensor of any norm *)
Theorem C50_projector_value n o T : length (data o) = n -> length (data T) = n ->
  tensor_scprod o (orthogonalize T [o]) = (1 - rinj (frob2 o)) * tensor_scprod o T.
Proof.
  intros Ho HT. rewrite (scprod_ortho o T o n) by assumption. rewrite tensor_scprod_self. ring.
Qed.
End Projector.


Section Start.
Context {RS : RScal}.
Variable svd : tensor -> tensor * list R * tensor.
Variable flag : R.
Hypothesis Hsvd : svd_contract svd.
Variable eigs : (tensor -> result tensor) -> nat -> nat -> tensor -> result (list K * tensor * bool).
Hypothesis Heigs : eigs_contract eigs.

(** What the last step did, for a run with one state phi (see MinOrthoRun.laststep) *)
Lemma with_run H psi ds o N value phi psi' E : valid_minimize flag eigs H psi ds o -> o_Dmax o = 0%Z -> (0 < o_sweeps o)%Z ->
  open_mps phi -> pdims phi = ds -> minimize_with svd flag eigs H psi o N value (Some [phi]) = Ok (psi', E) -> psi' <> [] ->
  exists k P, (k = 0 \/ k = length psi - 1)%nat /\ canonical_at k psi' /\ open_mps psi' /\ pdims psi' = ds /\
    laststep H ds phi k P E psi' /\ differs_at P psi' k.
Proof.
  intros HV HD Hs Ho Hp HR Hne.
  destruct (minimizer_starts svd flag Hsvd eigs H psi ds o HV) as (P0 & b & m & E0 & Hb & ((HQ & Hc & Hort & HN) & Hst & HLm & Hcv) & Ep & Hl & Hl0 & _ & _ & _ & _ & _).
  unfold minimize_with in HR. rewrite E0 in HR. cbn [bind] in HR. unfold add_constraint in HR.
  destruct (qform_new N (mz_psi m) (mz_psi m) 0) as [fN|]; [|discriminate HR]. cbn [bind] in HR. unfold add_states in HR. cbn [fold_left bind mz_psi mz_H mz_N mz_value mz_ortho mz_step mz_converged] in HR.
  destruct (lform_new1 phi (mz_psi m) 0) as [f|] eqn:Ef; [|discriminate HR]. cbn [bind] in HR. rewrite Hort in HR.
  assert (Hgap : o_compute_gap o = false \/ eigs_converges eigs).
  { destruct HV as (_ & _ & _ & _ & _ & [Hg|(_ & [Hg|Hg])]); [left; exact Hg|contradiction|right; exact Hg]. }
  pose proof HQ as (HoP & HpP & _ & Hq & _). rewrite Ep in *.
  assert (HR0 : readyo H ds b phi (length P0) true (mkMin P0 (mz_H m) (Some fN) value [f] (mz_step m) (mz_converged m))).
  { split; [|split; [exact Hst|split; [reflexivity|exact Hcv]]]. split; [exact HQ|]. split; [exact Hc|]. exists f. split; [reflexivity|].
    split; [exact HoP|]. split; [exact HpP|]. split; [cbn [start mz_psi]; lia|]. cbn [start mz_psi]. unfold lform_new1 in Ef. change 0%Z with (Z.of_nat 0) in Ef. exact (lfh_new [1] [phi] ds P0 0%nat f HoP HpP Ef). }
  destruct (ofull svd flag Hsvd eigs Heigs H ds (proj1 HV) b Hb phi (conj Ho Hp) o Hgap HD (length P0) _ psi' E Hl0 HR0 Hs HR Hne) as (d & m' & -> & (HG & _ & HL' & _) & P & HLs & Hdf).
  exists (start d (length P0)), P. destruct HG as (Q' & C' & _). split; [destruct d; cbn [start]; lia|]. split; [exact C'|]. split; [apply Q'|]. split; [apply Q'|]. auto.
Qed.
End Start.

Section Real.
Local Open Scope R_scope.
Notation RT := (@tensor (@rs_scalar RR)).
Variable svd : RT -> RT * list R * RT.
Variable flag : R.
Hypothesis Hsvd : @svd_contract RR svd.
Variable eigs : (RT -> result RT) -> nat -> nat -> RT -> result (list R * RT * bool).
Hypothesis Heigs : @eigs_contract RR eigs.

Lemma rsum_sum n (f : nat -> R) : rsum n f = @sum (@rs_scalar RR) n f.
Proof. induction n as [|n IH]; cbn; [reflexivity|]. rewrite IH. reflexivity. Qed.

(** The last vector has norm one if phi is one of the states which the last step could choose. *)
Lemma unit_vector (H : @mpo (@rs_scalar RR)) ds n emb M (v t : nat -> R) (phi : list nat -> R) : @family RR H ds n emb M ->
  (forall x : nat -> R, @inner (@rs_scalar RR) ds phi (amp (emb x)) = @sum (@rs_scalar RR) n (fun r => v r * x r)) ->
  @weight RR ds phi = 1 -> (forall is, in_range ds is -> amp (emb t) is = phi is) -> rsum n (fun r => @kmod2 RR (v r)) = 1.
Proof.
  intros (_ & F2 & _) Hv Hw Ht.
  assert (Hr : forall f : list nat -> R, @inner (@rs_scalar RR) ds f f = @weight RR ds f) by reflexivity.
  assert (Et : @sum (@rs_scalar RR) n (fun r => v r * t r) = 1).
  { rewrite <- Hv, <- Hw, <- Hr. unfold inner. apply sumcfg_ext. intros is Hi. rewrite Ht by exact Hi. reflexivity. }
  assert (Ett : rsum n (fun r => @kmod2 RR (t r)) = 1).
  { rewrite <- F2, <- Hw. unfold weight, inner. f_equal. apply sumcfg_ext. intros is Hi. rewrite Ht by exact Hi. reflexivity. }
  assert (D1 : 0 <= rsum n (fun r => @kmod2 RR (v r)) - 2 * @sum (@rs_scalar RR) n (fun r => v r * t r) + rsum n (fun r => @kmod2 RR (t r))).
  { clear. induction n as [|n IH]; [cbn; lra|]. cbn [rsum sum]. change (@kmod2 RR (v n)) with (v n * v n). change (@kmod2 RR (t n)) with (t n * t n).
    change (@kadd (@rs_scalar RR)) with Rplus. pose proof (Rle_0_sqr (v n - t n)). unfold Rsqr in *. lra. }
  pose proof (@dist2_expand RR ds phi (amp (emb v))) as D2. pose proof (@weight_nonneg RR ds (fun is => @ksub (@rs_scalar RR) (phi is) (amp (emb v) is))) as D3.
  change (@dist2 RR ds phi (amp (emb v)) = @inner (@rs_scalar RR) ds phi phi - @inner (@rs_scalar RR) ds phi (amp (emb v)) - @inner (@rs_scalar RR) ds phi (amp (emb v)) + @inner (@rs_scalar RR) ds (amp (emb v)) (amp (emb v))) in D2.
  change (0 <= @dist2 RR ds phi (amp (emb v))) in D3. rewrite !Hr, Hw, F2, Hv in D2. rewrite D2 in D3. rewrite <- rsum_sum in D3.
  change (rsum n (fun r => v r * v r)) with (rsum n (fun r => @kmod2 RR (v r))) in D3. lra.
Qed.

(** The real version, one-site algorithm.  If phi has norm one and is one of the states which the last step could
    have chosen (chi, with the amplitudes of phi, differs from the result at one end only), and the returned energy
    is not zero, then the result is orthogonal to phi, E is its energy, and it is the state of lowest energy, among those orthogonal to phi,
    that differ from it at that end. *)
Theorem C50_orthogonal H psi ds o N value phi psi' E : valid_minimize flag eigs H psi ds o -> o_Dmax o = 0%Z -> (0 < o_sweeps o)%Z ->
  open_mps phi -> pdims phi = ds -> weight ds (amp phi) = 1 ->
  minimize_with svd flag eigs H psi o N value (Some [phi]) = Ok (psi', E) -> psi' <> [] -> E <> 0 ->
  open_mps psi' /\ pdims psi' = ds /\
  exists k, (k = 0 \/ k = length psi - 1)%nat /\ canonical_at k psi' /\
    forall chi, open_mps chi -> pdims chi = ds -> differs_at psi' chi k -> (forall is, in_range ds is -> amp chi is = amp phi is) ->
      inner ds (amp phi) (amp psi') = 0 /\ weight ds (amp psi') = 1 /\ energy H psi' = E /\
      forall xi, open_mps xi -> pdims xi = ds -> differs_at psi' xi k -> inner ds (amp phi) (amp xi) = 0 -> E * weight ds (amp xi) <= energy H xi.
Proof.
  intros HV HD Hs Ho Hp Hw HR Hne HE.
  destruct (with_run svd flag Hsvd eigs Heigs H psi ds o N value phi psi' E HV HD Hs Ho Hp HR Hne) as (k & P & Hk & Hc & Ho' & Hp' & (M & v & p & L1 & L2 & L3 & L4 & HF & Hv & Hgr & HA) & Hdf).
  split; [exact Ho'|]. split; [exact Hp'|]. exists k. split; [exact Hk|]. split; [exact Hc|]. intros chi O1 D1 Df Hchi.
  set (n := nprod (dims (site P k))) in *. cbv zeta in Hgr.
  assert (Hun : rsum n (fun r => @kmod2 RR (v r)) = 1).
  { apply (unit_vector H ds n (emb1 k P) M v (fun r => nth r (data (site chi k)) 0%K) (amp phi) HF Hv Hw). intros is Hi.
    rewrite <- (differ1 ds k P chi L1 L2 L3 O1 D1); [apply Hchi; exact Hi|]. intros j Hj. rewrite Df, Hdf by exact Hj. reflexivity. }
  rewrite Hun, sqrt_1, sqrt_1, Rinv_1 in Hgr. destruct Hgr as (_ & Hgr).
  set (ov := fun r => @kmul (@rs_scalar RR) (@rinj RR 1) (v r)) in *.
  assert (Eov : forall r, ov r = v r) by (intros r; unfold ov; apply Rmult_1_l).
  assert (Hou : rsum n (fun r => @kmod2 RR (ov r)) = 1).
  { rewrite <- Hun. apply rsum_ext. intros r _. rewrite Eov. reflexivity. }
  pose proof (@ground_orthogonal RR n ov Hou M E p Hgr HE) as Hort.
  assert (Hin : forall x : nat -> R, @sum (@rs_scalar RR) n (fun r => @kmul (@rs_scalar RR) (@kconj (@rs_scalar RR) (ov r)) (x r)) = inner ds (amp phi) (amp (emb1 k P x))).
  { intros x. rewrite Hv. apply sum_ext. intros r Hr. change (ov r * x r = v r * x r). rewrite Eov. reflexivity. }
  destruct HF as (F1 & F2 & F3). destruct Hgr as (G1 & G2 & G3).
  assert (Een : forall x : nat -> R, inner ds (amp phi) (amp (emb1 k P x)) = 0 ->
     @sum (@rs_scalar RR) n (fun i => @sum (@rs_scalar RR) n (fun j => @kmul (@rs_scalar RR) (@kmul (@rs_scalar RR) (@kconj (@rs_scalar RR) (x i)) (@PMP RR n ov M i j)) (x j))) = energy H (emb1 k P x)).
  { intros x Hx. rewrite <- Hin in Hx. rewrite (@orthogonal_form RR n ov M x x Hx Hx). rewrite <- F3. reflexivity. }
  assert (Hpz : inner ds (amp phi) (amp (emb1 k P p)) = 0) by (rewrite <- Hin; exact Hort).
  destruct (energy_ext H ds (emb1 k P p) psi' (proj2 (F1 p)) Hp' HA) as (U1 & U2).
  split; [|split; [|split]].
  - rewrite <- Hpz. unfold inner. apply sumcfg_ext. intros is Hi. rewrite HA by exact Hi. reflexivity.
  - rewrite U2, F2. exact G1.
  - rewrite U1, <- (Een p Hpz).
    transitivity (E * rsum n (fun i => @kmod2 RR (p i))); [|rewrite G1; ring]. rewrite rsum_sum.
    change (E * @sum (@rs_scalar RR) n (fun i => @kmod2 RR (p i))) with (@kmul (@rs_scalar RR) E (@sum (@rs_scalar RR) n (fun i => @kmod2 RR (p i)))). rewrite sum_mul_l.
    refine (@sum_ext (@rs_scalar RR) n _ _ _). intros i Hi. specialize (G2 i Hi).
    transitivity (@kmul (@rs_scalar RR) (p i) (@sum (@rs_scalar RR) n (fun j => @kmul (@rs_scalar RR) (@PMP RR n ov M i j) (p j)))).
    + rewrite sum_mul_l. apply sum_ext. intros j Hj. change (p i * @PMP RR n ov M i j * p j = p i * (@PMP RR n ov M i j * p j)). ring.
    + rewrite G2. change (p i * (E * p i) = E * (p i * p i)). ring.
  - intros xi O2 D2 Df2 Hx. set (x := fun r => nth r (data (site xi k)) 0%K).
    assert (Ex : xi = emb1 k P x) by (apply (differ1 ds k P xi L1 L2 L3 O2 D2); intros j Hj; rewrite Df2, Hdf by exact Hj; reflexivity).
    rewrite Ex in Hx |- *. rewrite F2, <- (Een x Hx). apply G3.
Qed.
End Real.

(** ** One site *)
Section OneSite.
Context {RS : RScal}.
Variable svd : tensor -> tensor * list R * tensor.
Variable flag : R.
Hypothesis Hsvd : svd_contract svd.
Variable eigs : (tensor -> result tensor) -> nat -> nat -> tensor -> result (list K * tensor * bool).
Hypothesis Heigs : eigs_contract eigs.

(** A call with one site; N is any operator on it. *)
Definition one_site_call (H N : mpo) (psi phi : mps) (d : nat) (o : options) : Prop :=
  hamiltonian H [d] /\ open_mpo N /\ length N = 1%nat /\ open_mps psi /\ pdims psi = [d] /\ open_mps phi /\ pdims phi = [d] /\
  (flag <> 0%R \/ exists r, (r < d)%nat /\ amp psi [r] <> 0) /\ (exists r, (r < d)%nat /\ amp phi [r] <> 0) /\
  o_Dmax o = 0%Z /\ o_compute_gap o = false /\ (0 < o_sweeps o)%Z.

Lemma with_single H N psi phi d o value : one_site_call H N psi phi d o -> eigs_converges eigs ->
  exists psi' E p, minimize_with svd flag eigs H psi o N value (Some [phi]) = Ok (psi', E) /\ psi' <> [] /\
    open_mps psi' /\ pdims psi' = [d] /\ (forall r, (r < d)%nat -> amp psi' [r] = p r) /\
    let nv := sqrt (rsum d (fun r => kmod2 (amp phi [r]))) in
    nv <> 0%R /\ ground_state d (PMP d (fun r => rinj (/ sqrt nv) * kconj (amp phi [r])) (fun r c => opelem H [r] [c])) E p.
Proof.
  intros (HH & HN & HlN & Ho & Hp & Ho1 & Hp1 & Hz & Hnz & HD & Hg & Hs) Hcc.
  assert (HV : valid_minimize flag eigs H psi [d] o).
  { split; [exact HH|]. split; [exact Ho|]. split; [exact Hp|]. split; [left; exact HD|]. split; [|left; exact Hg].
    destruct Hz as [Hz|(r & Hr & Hz)]; [left; exact Hz|right]. exists [r]. split; [repeat constructor; exact Hr|exact Hz]. }
  destruct (minimizer_starts svd flag Hsvd eigs H psi [d] o HV) as (P0 & b & m & E0 & Hb & ((HQ & Hc & Hort & HNn) & Hst & HLm & Hcv) & Ep & Hl & Hl0 & _ & _ & _ & _ & _).
  pose proof HQ as (HoP & HpP & _ & Hq & _). rewrite Ep in *.
  assert (Hl1 : length P0 = 1%nat) by (rewrite <- length_pdims, HpP; reflexivity).
  destruct (proj1 (C45_constructor N P0 P0 0 HN HoP HoP) ltac:(lia)) as (fN & EfN).
  assert (Hgb : good_bras [1] [phi] [d]) by (split; [discriminate|split; [reflexivity|intros c [<-|[]]; auto]]).
  destruct (proj1 (C44_constructor [1] [phi] P0 [d] 0 Hgb) ltac:(cbn; lia)) as (f & Ef).
  set (m1 := mkMin P0 (mz_H m) (Some fN) value [f] (mz_step m) (mz_converged m)).
  assert (ER : minimize_with svd flag eigs H psi o N value (Some [phi]) = full_sweep svd flag eigs o m1).
  { unfold minimize_with. rewrite E0. cbn [bind]. unfold add_constraint. rewrite Ep, EfN. cbn [bind]. unfold add_states. cbn [fold_left bind mz_psi mz_H mz_N mz_value mz_ortho mz_step mz_converged].
    unfold lform_new1. rewrite Ef. cbn [bind]. rewrite Hort. reflexivity. }
  assert (HR0 : readyo H [d] b phi 1 true m1).
  { split; [|split; [exact Hst|split; [exact Hl1|exact Hcv]]]. split; [exact HQ|]. split; [exact Hc|]. exists f. split; [reflexivity|].
    split; [exact HoP|]. split; [exact HpP|]. split; [cbn [start mz_psi m1]; lia|]. cbn [start mz_psi m1]. change 0%Z with (Z.of_nat 0) in Ef. exact (lfh_new [1] [phi] [d] P0 0%nat f HoP HpP Ef). }
  destruct (single_loop_returns svd flag Hsvd eigs Heigs Hcc H d HH b Hb phi (conj Ho1 Hp1) Hnz o Hg HD (Z.to_nat (o_sweeps o)) true 0 true m1 (10 ^ 28)%R HR0) as (psi' & E & EL & Hne).
  assert (EW : minimize_with svd flag eigs H psi o N value (Some [phi]) = Ok (psi', E)) by (rewrite ER; exact EL).
  destruct (with_run svd flag Hsvd eigs Heigs H psi [d] o N value phi psi' E HV HD Hs Ho1 Hp1 EW Hne) as (k & P & Hk & _ & Ho' & Hp' & HLs & _).
  assert (k = 0%nat) as -> by lia. destruct (single_last H d phi P E psi' HLs) as (p & A1 & A2).
  exists psi', E, p. auto 10.
Qed.
End OneSite.

Section Refuted.
Local Open Scope R_scope.
Notation RT := (@tensor (@rs_scalar RR)).

(** One site, real: if some state orthogonal to phi, of norm one, has negative energy, the result is the state of
    lowest energy of all those. *)
Theorem C50_one_site (svd : RT -> RT * list R * RT) flag eigs H N psi phi d o value : @svd_contract RR svd -> @eigs_contract RR eigs -> eigs_converges eigs ->
  one_site_call flag H N psi phi d o -> weight [d] (amp phi) = 1 ->
  (exists f : list nat -> R, @inner (@rs_scalar RR) [d] (amp phi) f = 0 /\ @energy_of RR H [d] f < 0) ->
  exists psi' E, minimize_with svd flag eigs H psi o N value (Some [phi]) = Ok (psi', E) /\ open_mps psi' /\ pdims psi' = [d] /\
    inner [d] (amp phi) (amp psi') = 0 /\ weight [d] (amp psi') = 1 /\ energy H psi' = E /\
    forall f : list nat -> R, @inner (@rs_scalar RR) [d] (amp phi) f = 0 -> E * @weight RR [d] f <= @energy_of RR H [d] f.
Proof.
  intros Hsvd Heigs Hcc Hcall Hw (f0 & Hf0 & Hneg).
  destruct (with_single svd flag Hsvd eigs Heigs H N psi phi d o value Hcall Hcc) as (psi' & E & p & ER & Hne & Ho' & Hp' & HA & Hnv & Hgr).
  assert (Hun : rsum d (fun r => @kmod2 RR (amp phi [r])) = 1) by (rewrite rsum_sum; exact Hw).
  cbv zeta in Hgr. rewrite Hun, sqrt_1, sqrt_1, Rinv_1 in Hgr.
  set (ov := fun r => @kmul (@rs_scalar RR) (@rinj RR 1) (@kconj (@rs_scalar RR) (amp phi [r]))) in *.
  assert (Eov : forall r, ov r = amp phi [r]) by (intros r; unfold ov; apply Rmult_1_l).
  assert (Hou : rsum d (fun r => @kmod2 RR (ov r)) = 1).
  { rewrite <- Hun. apply rsum_ext. intros r _. rewrite Eov. reflexivity. }
  assert (Hin : forall f : list nat -> R, @sum (@rs_scalar RR) d (fun r => @kmul (@rs_scalar RR) (@kconj (@rs_scalar RR) (ov r)) (f [r])) = inner [d] (amp phi) f).
  { intros f. unfold inner. cbn [sumcfg]. apply sum_ext. intros r Hr. change (ov r * f [r] = amp phi [r] * f [r]). rewrite Eov. reflexivity. }
  destruct Hgr as (G1 & G2 & G3). pose proof (conj G1 (conj G2 G3)) as Hgr.
  assert (Hopt : forall f : list nat -> R, @inner (@rs_scalar RR) [d] (amp phi) f = 0 -> E * @weight RR [d] f <= @energy_of RR H [d] f).
  { intros f Hf. rewrite <- Hin in Hf. specialize (G3 (fun r => f [r])). rewrite (@orthogonal_form RR d ov _ (fun r => f [r]) (fun r => f [r]) Hf Hf) in G3. rewrite rsum_sum in G3. exact G3. }
  assert (HE : E <> 0).
  { intros ->. specialize (Hopt f0 Hf0). lra. }
  assert (Hz : inner [d] (amp phi) (amp psi') = 0).
  { rewrite <- Hin. refine (eq_trans _ (@ground_orthogonal RR d ov Hou _ E p Hgr HE)). refine (@sum_ext (@rs_scalar RR) d _ _ _). intros r Hr. rewrite HA by exact Hr. reflexivity. }
  exists psi', E. split; [exact ER|]. split; [exact Ho'|]. split; [exact Hp'|]. split; [exact Hz|].
  assert (Hwt : weight [d] (amp psi') = 1).
  { rewrite <- G1, rsum_sum. change (@sum (@rs_scalar RR) d (fun r => amp psi' [r] * amp psi' [r]) = @sum (@rs_scalar RR) d (fun r => p r * p r)). apply sum_ext. intros r Hr. rewrite HA by exact Hr. reflexivity. }
  split; [exact Hwt|]. split; [|exact Hopt].
  destruct (with_run svd flag Hsvd eigs Heigs H psi [d] o N value phi psi' E) as (k & P & Hk & Hc & _ & _ & _ & _); try apply Hcall; auto.
  { destruct Hcall as (A1 & A2 & A3 & A4 & A5 & A6 & A7 & A8 & A9 & A10 & A11 & A12). split; [exact A1|]. split; [exact A4|]. split; [exact A5|]. split; [left; exact A10|]. split; [|left; exact A11].
    destruct A8 as [Hzz|(r & Hr & Hzz)]; [left; exact Hzz|right]. exists [r]. split; [repeat constructor; exact Hr|exact Hzz]. }
  unfold energy. rewrite Hp'.
  assert (Hfz : @sum (@rs_scalar RR) d (fun r => @kmul (@rs_scalar RR) (@kconj (@rs_scalar RR) (ov r)) (p r)) = 0) by (apply (@ground_orthogonal RR d ov Hou _ E p Hgr HE)).
  transitivity (@sum (@rs_scalar RR) d (fun i => @sum (@rs_scalar RR) d (fun j => @kmul (@rs_scalar RR) (@kmul (@rs_scalar RR) (@kconj (@rs_scalar RR) (p i)) (opelem H [i] [j])) (p j)))).
  { change (@energy_of RR H [d] (amp psi')) with (@sum (@rs_scalar RR) d (fun i => @sum (@rs_scalar RR) d (fun j => @kmul (@rs_scalar RR) (@kmul (@rs_scalar RR) (@kconj (@rs_scalar RR) (amp psi' [i])) (opelem H [i] [j])) (amp psi' [j])))).
    refine (@sum_ext (@rs_scalar RR) d _ _ _). intros i Hi. refine (@sum_ext (@rs_scalar RR) d _ _ _). intros j Hj. rewrite !HA by assumption. reflexivity. }
  rewrite <- (@orthogonal_form RR d ov _ p p Hfz Hfz).
  transitivity (E * rsum d (fun i => @kmod2 RR (p i))); [|rewrite G1; ring]. rewrite rsum_sum.
  change (E * @sum (@rs_scalar RR) d (fun i => @kmod2 RR (p i))) with (@kmul (@rs_scalar RR) E (@sum (@rs_scalar RR) d (fun i => @kmod2 RR (p i)))). rewrite sum_mul_l.
  refine (@sum_ext (@rs_scalar RR) d _ _ _). intros i Hi. specialize (G2 i Hi).
  transitivity (@kmul (@rs_scalar RR) (p i) (@sum (@rs_scalar RR) d (fun j => @kmul (@rs_scalar RR) (@PMP RR d ov (fun r c => opelem H [r] [c]) i j) (p j)))).
  + rewrite sum_mul_l. apply sum_ext. intros j Hj. match goal with |- ?L = ?R0 => change (p i * @PMP RR d ov (fun r c => opelem H [r] [c]) i j * p j = p i * (@PMP RR d ov (fun r c => opelem H [r] [c]) i j * p j)) end. ring.
  + rewrite G2. change (p i * (E * p i) = E * (p i * p i)). ring.
Qed.
End Refuted.
