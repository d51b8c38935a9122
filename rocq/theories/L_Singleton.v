From Coq Require Import List Arith Lia Bool.
From Verif Require Import M_Singleton.
Import ListNotations.

Definition holds (p : pc) : bool :=
  match p with Idle | Lock => false | _ => true end.

(** What the holder's position says about the instance. *)
Definition holder_ok (p : pc) (s : sys) : Prop :=
  match p with
  | New => instance s = None /\ ctors s = 0
  | Assign q => instance s = None /\ ctors s = 1 /\ q = 0
  | Ret => instance s = Some 0 /\ ctors s = 1
  | Unlock q => instance s = Some 0 /\ ctors s = 1 /\ q = Some 0
  | _ => (instance s = None /\ ctors s = 0) \/ (instance s = Some 0 /\ ctors s = 1)
  end.

Definition inv (s : sys) : Prop :=
  (forall i, holds (at_ s i) = true <-> mutex s = Some i) /\
  (forall i, mutex s = Some i -> holder_ok (at_ s i) s) /\
  (mutex s = None -> holder_ok Idle s) /\
  (forall i v, In (i, v) (returned s) -> v = Some 0 /\ ctors s = 1).

Lemma upd_same : forall f i v, upd f i v i = v.
Proof. intros. unfold upd. now rewrite Nat.eqb_refl. Qed.
Lemma upd_other : forall f i j v, j <> i -> upd f i v j = f j.
Proof. intros. unfold upd. now destruct (Nat.eqb_spec j i). Qed.

Lemma inv0 : inv sys0.
Proof.
  unfold inv; simpl. repeat split; try discriminate; intros; try contradiction; auto.
Qed.

(** Only the moving thread's position changes. *)
Lemma holds_upd : forall s i v m,
  (forall j, holds (at_ s j) = true <-> mutex s = Some j) ->
  (holds v = true <-> m = Some i) ->
  (forall j, j <> i -> (mutex s = Some j <-> m = Some j)) ->
  forall j, holds (upd (at_ s) i v j) = true <-> m = Some j.
Proof.
  intros s i v m H Hv Hm j. destruct (Nat.eq_dec j i) as [->|N].
  - now rewrite upd_same.
  - rewrite upd_other by auto. rewrite H. now apply Hm.
Qed.

Lemma inv_tstep : forall i s s', inv s -> tstep i s = Some s' -> inv s'.
Proof.
  intros i s s' (A & B & C & D) E. unfold tstep in E.
  assert (A0 := A). assert (Ai := A i).
  destruct (at_ s i) eqn:P; simpl in Ai.
  - (* Idle *) injection E as <-.
    assert (M : mutex s <> Some i) by (intros Q; apply Ai in Q; discriminate).
    unfold inv; simpl. repeat split; auto; try (eapply D; eauto; fail).
    1,2: apply (holds_upd s i Lock (mutex s) A0); simpl; (split; intros; (easy || congruence || (exfalso; congruence))) || (intros; split; intros; congruence).
    intros j Q. rewrite upd_other by congruence. specialize (B j Q). destruct (at_ s j); auto.
  - (* Lock *) destruct (mutex s) eqn:M; [discriminate|]. injection E as <-. rewrite <- M in A0.
    unfold inv; simpl. repeat split; try (eapply D; eauto; fail); try discriminate.
    1,2: apply (holds_upd s i Test (Some i) A0); rewrite ?M; simpl; (split; intros; (easy || congruence || (exfalso; congruence))) || (intros; split; intros; congruence).
    intros j Q. injection Q as <-. rewrite upd_same. simpl. now apply C.
  - (* Test *) assert (M : mutex s = Some i) by now apply Ai.
    pose proof (B i M) as Bi. rewrite P in Bi. simpl in Bi.
    injection E as <-. rewrite M. unfold inv; simpl. repeat split; try (eapply D; eauto; fail); try discriminate.
    1,2: apply (holds_upd s i _ (Some i) A0); rewrite ?M; destruct (instance s); simpl; (split; intros; (easy || congruence || (exfalso; congruence))) || (intros; split; intros; congruence).
    intros j Q. injection Q as <-. rewrite upd_same.
    destruct Bi as [[X Y]|[X Y]]; rewrite X; simpl; auto.
  - (* New *) assert (M : mutex s = Some i) by now apply Ai.
    pose proof (B i M) as Bi. rewrite P in Bi. simpl in Bi. destruct Bi as [X Y].
    injection E as <-. rewrite M. unfold inv; simpl. repeat split; try discriminate.
    1,2: apply (holds_upd s i _ (Some i) A0); rewrite ?M; simpl; (split; intros; (easy || congruence || (exfalso; congruence))) || (intros; split; intros; congruence).
    + intros j Q. injection Q as <-. rewrite upd_same. simpl. auto.
    + apply D in H. lia.
    + apply D in H. lia.
  - (* Assign *) assert (M : mutex s = Some i) by now apply Ai.
    pose proof (B i M) as Bi. rewrite P in Bi. simpl in Bi. destruct Bi as (X & Y & ->).
    injection E as <-. rewrite M. unfold inv; simpl. repeat split; try (eapply D; eauto; fail); try discriminate.
    1,2: apply (holds_upd s i _ (Some i) A0); rewrite ?M; simpl; (split; intros; (easy || congruence || (exfalso; congruence))) || (intros; split; intros; congruence).
    intros j Q. injection Q as <-. rewrite upd_same. simpl. auto.
  - (* Ret *) assert (M : mutex s = Some i) by now apply Ai.
    pose proof (B i M) as Bi. rewrite P in Bi. simpl in Bi. destruct Bi as (X & Y).
    injection E as <-. rewrite M. unfold inv; simpl. repeat split; try (eapply D; eauto; fail); try discriminate.
    1,2: apply (holds_upd s i _ (Some i) A0); rewrite ?M; simpl; (split; intros; (easy || congruence || (exfalso; congruence))) || (intros; split; intros; congruence).
    intros j Q. injection Q as <-. rewrite upd_same. simpl. auto.
  - (* Unlock *) assert (M : mutex s = Some i) by now apply Ai.
    pose proof (B i M) as Bi. rewrite P in Bi. simpl in Bi. destruct Bi as (X & Y & ->).
    injection E as <-. unfold inv; simpl. split.
    { apply (holds_upd s i _ None A0); rewrite ?M; simpl; [split; discriminate|].
      intros j J. split; intros; congruence. }
    repeat split; try discriminate; auto.
    + destruct H as [H|H]; [congruence|]. now apply (D i0).
Qed.

Lemma inv_sched : forall l s, inv s -> inv (sched l s).
Proof.
  induction l as [|i l IH]; intros s I; simpl; auto. apply IH.
  destruct (tstep i s) eqn:E; auto. eapply inv_tstep; eauto.
Qed.

Lemma singleton_safe : forall l i v,
  In (i, v) (returned (sched l sys0)) ->
  v = Some 0 /\ ctors (sched l sys0) = 1.
Proof. intros l i v. pose proof (inv_sched l sys0 inv0) as (_ & _ & _ & D). apply D. Qed.

Lemma singleton_ctors : forall l, ctors (sched l sys0) <= 1.
Proof.
  intros l. destruct (inv_sched l sys0 inv0) as (_ & B & C & _).
  destruct (mutex (sched l sys0)) as [i|] eqn:M.
  - specialize (B i eq_refl). destruct (at_ _ i); simpl in B; lia.
  - specialize (C eq_refl). simpl in C. lia.
Qed.

Lemma sched_app : forall l1 l2 s, sched (l1 ++ l2) s = sched l2 (sched l1 s).
Proof. induction l1; simpl; auto. Qed.

(** A thread that holds the mutex can always finish on its own. *)
Lemma holder_finishes : forall i s, inv s -> mutex s = Some i ->
  exists l v, (forall j, In j l -> j = i) /\ let s' := sched l s in
    mutex s' = None /\ at_ s' i = Idle /\ (forall j, j <> i -> at_ s' j = at_ s j) /\
    returned s' = (i, v) :: returned s.
Proof.
  intros i s I M.
  assert (F : forall n s, inv s -> mutex s = Some i ->
     n = match at_ s i with Test => 5 | New => 4 | Assign _ => 3 | Ret => 2 | Unlock _ => 1 | _ => 0 end ->
     exists l v, (forall j, In j l -> j = i) /\ let s' := sched l s in
       mutex s' = None /\ at_ s' i = Idle /\ (forall j, j <> i -> at_ s' j = at_ s j) /\
       returned s' = (i, v) :: returned s).
  2:{ eapply F; eauto. }
  clear s I M.
  induction n as [n IH] using lt_wf_ind. intros s I M En.
  assert (H : holds (at_ s i) = true) by (now apply (proj1 I)).
  assert (G : forall s', tstep i s = Some s' -> mutex s' = Some i ->
     returned s' = returned s -> (forall j, j <> i -> at_ s' j = at_ s j) ->
     match at_ s' i with Test => 5 | New => 4 | Assign _ => 3 | Ret => 2 | Unlock _ => 1 | _ => 0 end < n ->
     exists l v, (forall j, In j l -> j = i) /\ let s' := sched l s in
       mutex s' = None /\ at_ s' i = Idle /\ (forall j, j <> i -> at_ s' j = at_ s j) /\
       returned s' = (i, v) :: returned s).
  { intros s' E M' R O L. destruct (IH _ L s') as (l & v & A & B1 & B2 & B3 & B4); auto.
    eapply inv_tstep; eauto. exists (i :: l), v. split.
    - intros j [<-|J]; auto.
    - simpl. rewrite E. repeat split; auto.
      + intros j J. rewrite B3 by auto. auto.
      + now rewrite B4, R. }
  destruct (at_ s i) eqn:P; try discriminate.
  - eapply G; [unfold tstep; rewrite P; reflexivity|..]; simpl; auto.
    + intros j J. now apply upd_other.
    + rewrite upd_same. destruct (instance s); subst; auto.
  - eapply G; [unfold tstep; rewrite P; reflexivity|..]; simpl; auto.
    + intros j J. now apply upd_other.
    + rewrite upd_same. subst; auto.
  - eapply G; [unfold tstep; rewrite P; reflexivity|..]; simpl; auto.
    + intros j J. now apply upd_other.
    + rewrite upd_same. subst; auto.
  - eapply G; [unfold tstep; rewrite P; reflexivity|..]; simpl; auto.
    + intros j J. now apply upd_other.
    + rewrite upd_same. subst; auto.
  - exists [i], p. split; [intros j [->|[]]; auto|]. simpl. unfold tstep. rewrite P. simpl.
    repeat split; auto. apply upd_same. intros j J. now apply upd_other.
Qed.

(** No deadlock: from every reachable state every pending call can be completed, moving
    only its own thread and the current holder. *)
Lemma call_completes : forall l i, let s := sched l sys0 in
  at_ s i <> Idle ->
  exists l', (forall j, In j l' -> j = i \/ mutex s = Some j) /\
    at_ (sched l' s) i = Idle /\ exists v, In (i, v) (returned (sched l' s)) /\
    length (returned s) < length (returned (sched l' s)).
Proof.
  intros l i s NI. assert (I : inv s) by apply inv_sched, inv0.
  assert (FREE : forall s', inv s' -> mutex s' = None -> at_ s' i = Lock ->
    exists l' v, (forall j, In j l' -> j = i) /\ at_ (sched l' s') i = Idle /\
      returned (sched l' s') = (i, v) :: returned s').
  { intros s' I' M' P'. assert (E : tstep i s' = Some (mkSys (Some i) (instance s') (ctors s') (upd (at_ s') i Test) (returned s'))).
    { unfold tstep. now rewrite P', M'. }
    destruct (holder_finishes i _ (inv_tstep _ _ _ I' E)) as (l' & v & A & B1 & B2 & B3 & B4); auto.
    exists (i :: l'), v. split; [intros j [<-|J]; auto|]. cbn [sched]. rewrite E. auto. }
  destruct (mutex s) as [k|] eqn:M.
  - destruct (holder_finishes k s I M) as (l1 & v1 & A & B1 & B2 & B3 & B4).
    destruct (Nat.eq_dec k i) as [->|N].
    + exists l1. split; [intros j J; left; auto|]. split; auto. exists v1. rewrite B4. simpl; auto.
    + assert (P : at_ s i = Lock).
      { assert (holds (at_ s i) <> true) by (rewrite (proj1 I); congruence).
        destruct (at_ s i); simpl in *; congruence. }
      destruct (FREE (sched l1 s)) as (l2 & v2 & A2 & C1 & C2).
      * now apply inv_sched.
      * exact B1.
      * now rewrite B3 by auto.
      * exists (l1 ++ l2). split.
        { intros j J. apply in_app_or in J as [J|J]; auto. right. f_equal. symmetry; auto. }
        rewrite sched_app. split; auto. exists v2. rewrite C2, B4. simpl; auto.
  - assert (P : at_ s i = Lock).
    { assert (holds (at_ s i) <> true) by (rewrite (proj1 I); congruence).
      destruct (at_ s i); simpl in *; congruence. }
    destruct (FREE s I M P) as (l2 & v2 & A2 & C1 & C2).
    exists l2. split; [intros j J; left; auto|]. split; auto. exists v2. rewrite C2. simpl; auto.
Qed.

Lemma singleton_once : forall l,
  ctors (sched l sys0) <= 1 /\
  (forall i v j v', In (i, v) (returned (sched l sys0)) -> In (j, v') (returned (sched l sys0)) ->
     v = v' /\ v <> None /\ ctors (sched l sys0) = 1).
Proof.
  intros l. split; [apply singleton_ctors|]. intros i v j v' H H'.
  apply singleton_safe in H as [-> C]. apply singleton_safe in H' as [-> _].
  repeat split; auto. discriminate.
Qed.

Lemma singleton_over_time : forall l l' i v j v',
  In (i, v) (returned (sched l sys0)) -> In (j, v') (returned (sched (l ++ l') sys0)) -> v = v'.
Proof.
  intros l l' i v j v' H H'. apply singleton_safe in H as [-> _]. now apply singleton_safe in H' as [-> _].
Qed.
