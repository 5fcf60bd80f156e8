(** * A loop that ends on a small change or on too many growths of the energy *)
From Coq Require Import Reals List Arith ZArith Lia Bool Lra.
From Verif Require Import Scalar Tensor RScal CanonModel GrowthSpec.

Lemma growths_det e j c : growths e j c -> forall c', growths e j c' -> c = c'.
Proof.
  induction 1 as [j Hj|j c Hj H1 IH Hg|j c Hj H1 IH Hg]; intros c' H'; inversion H'; subst; try lia; try contradiction.
  - f_equal. apply IH. assumption.
  - apply IH. assumption.
Qed.
Lemma growths_ext e e' j c : (forall i, (i <= j)%nat -> e' i = e i) -> growths e j c -> growths e' j c.
Proof.
  intros He H. revert He. induction H as [j Hj|j c Hj H1 IH Hg|j c Hj H1 IH Hg]; intros He.
  - apply growths_1. exact Hj.
  - apply growths_yes; [exact Hj|apply IH; intros i Hi; apply He; lia|]. unfold grew in *. rewrite (He (S j)), (He (S j - 1)%nat) by lia. exact Hg.
  - apply growths_no; [exact Hj|apply IH; intros i Hi; apply He; lia|]. unfold grew in *. rewrite (He (S j)), (He (S j - 1)%nat) by lia. exact Hg.
Qed.

Section Loop.
Context {A X : Type}.
Variable out : X -> A.
Variable body : X -> result (A + X * R).
Variable failed : A -> Prop.
Hypothesis Hfail : forall x a, body x = Ok (inl a) -> failed a.
Variables (E0 tolerance : R) (allow : Z).

Fixpoint gloop (n : nat) (first : bool) (failures : Z) (x : X) (E : R) : result (A * R) :=
  match n with
  | O => Ok (out x, E)
  | S n =>
      bind (body x) (fun r =>
      match r with
      | inl a => Ok (a, E)
      | inr (x, newE) =>
          if first then gloop n false failures x newE
          else if Rltb (Rabs (newE - E)) tolerance then Ok (out x, newE)
          else if Rltb (1 / 10 ^ 14 * Rabs newE) (newE - E) then
            if (allow <=? failures)%Z then Ok (out x, newE) else gloop n false (failures + 1) x newE
          else gloop n false failures x newE
      end)
  end.

Lemma Rltb_iff a b : Rltb a b = true <-> (a < b)%R.
Proof. unfold Rltb. destruct (Rlt_dec a b); split; try discriminate; tauto. Qed.

Lemma gloop_ends n : forall k0 e c x E P F, growths e k0 c -> E = (if Nat.eqb k0 0 then E0 else e k0) ->
  (k0 = 0%nat -> c = 0%nat) -> ~ last_sweep e tolerance allow k0 ->
  let run := fun m => gloop (m - k0) (Nat.eqb k0 0) (Z.of_nat c) x E in
  run (k0 + n)%nat = Ok (P, F) ->
  exists e' k, (k0 <= k <= k0 + n)%nat /\ (forall i, (i <= k0)%nat -> e' i = e i) /\ F = (if Nat.eqb k 0 then E0 else e' k) /\
    (forall i, (k0 < i <= k)%nat -> exists Q, run i = Ok (Q, e' i)) /\
    (forall i, (k0 < i < k)%nat -> ~ last_sweep e' tolerance allow i) /\
    ((last_sweep e' tolerance allow k /\ forall m, (k <= m)%nat -> run m = Ok (P, F)) \/
     (~ last_sweep e' tolerance allow k /\ k = (k0 + n)%nat) \/
     (~ last_sweep e' tolerance allow k /\ failed P /\ forall m, (k < m)%nat -> run m = Ok (P, F))).
Proof.
  induction n as [|n IH]; intros k0 e c x E P F Hc HE Hc0 Hnl run H.
  - exists e, k0. unfold run in H. replace (k0 + 0 - k0)%nat with 0%nat in H by lia. cbn [gloop] in H. injection H as _ <-.
    split; [lia|]. split; [auto|]. split; [exact HE|]. split; [intros; lia|]. split; [intros; lia|]. right. left. split; [exact Hnl|lia].
  - unfold run in H. replace (k0 + S n - k0)%nat with (S n) in H by lia. cbn [gloop] in H.
    destruct (body x) as [[a|(x1 & newE)]|] eqn:Eb; [| |discriminate]; cbn [bind] in H.
    { exists e, k0. injection H as <- <-. split; [lia|]. split; [auto|]. split; [exact HE|]. split; [intros; lia|]. split; [intros; lia|].
      right. right. split; [exact Hnl|]. split; [eapply Hfail; exact Eb|]. intros m Hm. unfold run. destruct (m - k0)%nat as [|q] eqn:Eq; [lia|]. cbn [gloop]. rewrite Eb. reflexivity. }
    set (e1 := fun i => if Nat.eqb i (S k0) then newE else e i).
    assert (He1 : forall i, (i <= k0)%nat -> e1 i = e i) by (intros i Hi; unfold e1; destruct (Nat.eqb_spec i (S k0)); [lia|reflexivity]).
    assert (He2 : e1 (S k0) = newE) by (unfold e1; rewrite Nat.eqb_refl; reflexivity).
    assert (Hgr : growths e1 k0 c) by (apply (growths_ext e); assumption).
    assert (Hrun1 : run (S k0) = Ok (out x1, newE)).
    { unfold run. replace (S k0 - k0)%nat with 1%nat by lia. cbn [gloop]. rewrite Eb. cbn [bind].
      destruct (Nat.eqb k0 0); [reflexivity|]. destruct (Rltb _ _); [reflexivity|]. destruct (Rltb _ _); [|reflexivity]. destruct (_ <=? _)%Z; reflexivity. }
    assert (Hstop : last_sweep e1 tolerance allow (S k0) -> (forall m, (S k0 <= m)%nat -> run m = Ok (out x1, newE)) -> (P, F) = (out x1, newE) ->
      exists e' k, (k0 <= k <= k0 + S n)%nat /\ (forall i, (i <= k0)%nat -> e' i = e i) /\ F = (if Nat.eqb k 0 then E0 else e' k) /\
        (forall i, (k0 < i <= k)%nat -> exists Q, run i = Ok (Q, e' i)) /\ (forall i, (k0 < i < k)%nat -> ~ last_sweep e' tolerance allow i) /\
        ((last_sweep e' tolerance allow k /\ forall m, (k <= m)%nat -> run m = Ok (P, F)) \/
         (~ last_sweep e' tolerance allow k /\ k = (k0 + S n)%nat) \/
         (~ last_sweep e' tolerance allow k /\ failed P /\ forall m, (k < m)%nat -> run m = Ok (P, F)))).
    { intros Hl Hm E1. injection E1 as -> ->. exists e1, (S k0). split; [lia|]. split; [exact He1|]. split; [symmetry; exact He2|].
      split; [intros i Hi; assert (i = S k0) as -> by lia; rewrite He2; eauto|]. split; [intros; lia|]. left. split; [exact Hl|exact Hm]. }
    assert (Hgo : forall c1, growths e1 (S k0) c1 -> ~ last_sweep e1 tolerance allow (S k0) ->
      (forall q, gloop (S q) (Nat.eqb k0 0) (Z.of_nat c) x E = gloop q false (Z.of_nat c1) x1 newE) -> gloop n false (Z.of_nat c1) x1 newE = Ok (P, F) ->
      exists e' k, (k0 <= k <= k0 + S n)%nat /\ (forall i, (i <= k0)%nat -> e' i = e i) /\ F = (if Nat.eqb k 0 then E0 else e' k) /\
        (forall i, (k0 < i <= k)%nat -> exists Q, run i = Ok (Q, e' i)) /\ (forall i, (k0 < i < k)%nat -> ~ last_sweep e' tolerance allow i) /\
        ((last_sweep e' tolerance allow k /\ forall m, (k <= m)%nat -> run m = Ok (P, F)) \/
         (~ last_sweep e' tolerance allow k /\ k = (k0 + S n)%nat) \/
         (~ last_sweep e' tolerance allow k /\ failed P /\ forall m, (k < m)%nat -> run m = Ok (P, F)))).
    { intros c1 Hc1 Hnl1 Hstep HG.
      assert (Hr : forall m, (S k0 <= m)%nat -> run m = gloop (m - S k0) (Nat.eqb (S k0) 0) (Z.of_nat c1) x1 newE).
      { intros m Hm. unfold run. replace (m - k0)%nat with (S (m - S k0)) by lia. rewrite Hstep. reflexivity. }
      destruct (IH (S k0) e1 c1 x1 newE P F Hc1 (eq_sym He2) ltac:(discriminate) Hnl1) as (e' & k & Hk & Hee & HF & HQ & HN & HL).
      { replace (S k0 + n - S k0)%nat with n by lia. exact HG. }
      exists e', k. split; [lia|]. split; [intros i Hi; rewrite Hee by lia; apply He1; exact Hi|]. split; [exact HF|]. split; [|split].
      - intros i Hi. destruct (Nat.eq_dec i (S k0)) as [->|Hne]; [exists (out x1); rewrite Hee by lia; rewrite He2; exact Hrun1|].
        rewrite Hr by lia. apply HQ. lia.
      - intros i Hi. destruct (Nat.eq_dec i (S k0)) as [->|Hne]; [|apply HN; lia]. intros (HS2 & HS). apply Hnl1. split; [exact HS2|]. destruct HS as [HS|(HS & c2 & HS1 & HS3)].
        + left. unfold small_change in *. rewrite (Hee (S k0)), (Hee (S k0 - 1)%nat) in HS by lia. exact HS.
        + right. split; [unfold grew in *; rewrite (Hee (S k0)), (Hee (S k0 - 1)%nat) in HS by lia; exact HS|]. exists c2. split; [|exact HS3].
          apply (growths_ext e'); [|exact HS1]. intros i Hi'. symmetry. apply Hee. lia.
      - destruct HL as [(HL1 & HL2)|[(HL1 & HL2)|(HL1 & HL2 & HL3)]].
        + left. split; [exact HL1|]. intros m Hm. rewrite Hr by lia. apply HL2. exact Hm.
        + right. left. split; [exact HL1|lia].
        + right. right. split; [exact HL1|]. split; [exact HL2|]. intros m Hm. rewrite Hr by lia. apply HL3. exact Hm. }
    destruct (Nat.eqb_spec k0 0) as [E00|Hk0].
    + specialize (Hc0 E00). subst c. apply (Hgo 0%nat); [apply growths_1; lia| |intros q; cbn [gloop]; rewrite Eb; reflexivity|exact H].
      intros (HS & _). lia.
    + assert (Hprev : e1 (S k0 - 1)%nat = E) by (replace (S k0 - 1)%nat with k0 by lia; rewrite He1 by lia; symmetry; exact HE).
      destruct (Rltb (Rabs (newE - E)) tolerance) eqn:E1.
      { apply Hstop; [split; [lia|left; unfold small_change; rewrite He2, Hprev; apply Rltb_iff; exact E1]| |congruence].
        intros m Hm. unfold run. destruct (m - k0)%nat as [|q] eqn:Eq; [lia|]. cbn [gloop]. rewrite Eb. cbn [bind]. destruct (Nat.eqb_spec k0 0); [lia|]. rewrite E1. reflexivity. }
      assert (Hns : ~ small_change e1 tolerance (S k0)) by (unfold small_change; rewrite He2, Hprev; intros C; apply Rltb_iff in C; congruence).
      destruct (Rltb (1 / 10 ^ 14 * Rabs newE) (newE - E)) eqn:E2.
      * assert (Hg : grew e1 (S k0)) by (unfold grew; rewrite He2, Hprev; apply Rltb_iff; exact E2).
        destruct (Z.leb_spec allow (Z.of_nat c)) as [Ha|Ha].
        -- apply Hstop; [split; [lia|right; split; [exact Hg|exists c; replace (S k0 - 1)%nat with k0 by lia; split; [exact Hgr|exact Ha]]]| |congruence].
           intros m Hm. unfold run. destruct (m - k0)%nat as [|q] eqn:Eq; [lia|]. cbn [gloop]. rewrite Eb. cbn [bind]. destruct (Nat.eqb_spec k0 0); [lia|]. rewrite E1, E2.
           destruct (Z.leb_spec allow (Z.of_nat c)); [reflexivity|lia].
        -- apply (Hgo (S c)); [apply growths_yes; [lia|exact Hgr|exact Hg]| | |].
           ++ intros (_ & [HS|(_ & c2 & HS1 & HS2)]); [contradiction|]. replace (S k0 - 1)%nat with k0 in HS1 by lia.
              rewrite (growths_det _ _ _ HS1 _ Hgr) in HS2. lia.
           ++ intros q. cbn [gloop]. rewrite Eb. cbn [bind]. destruct (Nat.eqb_spec k0 0); [lia|]. rewrite E1, E2. destruct (Z.leb_spec allow (Z.of_nat c)); [lia|]. f_equal. lia.
           ++ rewrite <- H. f_equal. lia.
      * assert (Hg : ~ grew e1 (S k0)) by (unfold grew; rewrite He2, Hprev; intros C; apply Rltb_iff in C; congruence).
        apply (Hgo c); [apply growths_no; [lia|exact Hgr|exact Hg]| | |exact H].
        -- intros (_ & [HS|(HS & _)]); contradiction.
        -- intros q. cbn [gloop]. rewrite Eb. cbn [bind]. destruct (Nat.eqb_spec k0 0); [lia|]. rewrite E1, E2. reflexivity.
Qed.

Lemma gloop_spec (run : nat -> result (A * R)) x : (forall n, run n = gloop n true 0 x E0) ->
  ends_with_growth run failed E0 tolerance allow.
Proof.
  intros HR n P E _ H. rewrite HR in H.
  destruct (gloop_ends n 0 (fun _ => 0%R) 0 x E0 P E) as (e & k & Hk & _ & HF & HQ & HN & HL).
  - apply growths_1. lia.
  - reflexivity.
  - reflexivity.
  - intros (HS & _). lia.
  - cbn [Nat.add Nat.eqb]. rewrite Nat.sub_0_r. exact H.
  - cbn [Nat.add Nat.eqb] in *. exists e, k. cbv zeta. split; [lia|]. split; [exact HF|]. split; [|split].
    + intros i Hi. destruct (HQ i Hi) as (Q & EQ). exists Q. rewrite HR, <- EQ, Nat.sub_0_r. reflexivity.
    + intros i Hi. apply HN. exact Hi.
    + destruct HL as [(HL1 & HL2)|[HL|(HL1 & HL2 & HL3)]].
      * left. split; [exact HL1|]. intros m Hm. rewrite HR, <- (HL2 m Hm), Nat.sub_0_r. reflexivity.
      * right. left. exact HL.
      * right. right. split; [exact HL1|]. split; [exact HL2|]. intros m Hm. rewrite HR, <- (HL3 m Hm), Nat.sub_0_r. reflexivity.
Qed.
End Loop.
