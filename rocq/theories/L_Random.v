(** Lemmas on generators. *)
From Coq Require Import List ZArith Bool Lia Reals.
From Verif Require Import M_Num M_Outcome M_Random S_Random.
Import ListNotations.

Section Quasi.
Context {T : Type} {num : Num T}.
Variable env : Env T.

Lemma inv_cdf_not_UB : forall d (q : T), inv_cdf d q <> UB.
Proof.
  intros [] q; try discriminate. cbn. unfold snd_inv_cdf.
  destruct (_ || _)%bool; [discriminate|]. cbv zeta. destruct (nltb _ _); discriminate.
Qed.

(** State of a quasi-random generator about to deliver coordinate number [i]. *)
Definition at_coord (k : QKind) (seed dim : Z) (i : nat) (g : Gen T) : Prop :=
  gQuasi g = Some k /\ gDim g = dim /\ gSeed g = seed /\
  exists q, gNext g = S q /\ gPoint g = the_point env k seed dim q /\
    (0 <= gStep g <= dim)%Z /\ (i = q * Z.to_nat dim + Z.to_nat (gStep g))%nat.

Lemma ctor_at : forall k seed dim, (0 <= dim)%Z -> at_coord k seed dim 0 (Quasi_ctor env k dim seed).
Proof.
  intros. unfold at_coord, Quasi_ctor; cbn. repeat (split; [easy|]).
  exists 0%nat. repeat split; try easy.
Qed.

Lemma the_point_get : forall k seed dim q s, (0 <= s < dim)%Z ->
  vget (the_point env k seed dim q) s = Ok (e_point env k seed dim q s).
Proof.
  intros. unfold vget. destruct (Z.ltb_spec s 0); [lia|].
  unfold the_point. erewrite map_nth_error.
  2:{ rewrite (nth_error_nth' _ 0%nat) by (rewrite seq_length; lia).
      rewrite seq_nth by lia. reflexivity. }
  cbn. now rewrite Z2Nat.id by lia.
Qed.

Lemma coord_eq : forall k seed dim q s, (0 <= s < dim)%Z ->
  coordinate env k seed dim (q * Z.to_nat dim + Z.to_nat s) = e_point env k seed dim q s.
Proof.
  intros. unfold coordinate.
  rewrite Nat.div_add_l by lia. rewrite Nat.div_small by lia. rewrite Nat.add_0_r.
  rewrite (Nat.add_comm (q * _)), Nat.mod_add by lia. rewrite Nat.mod_small by lia.
  now rewrite Z2Nat.id by lia.
Qed.

Lemma quasi_uniform_at : forall k seed dim i g, (1 <= dim < UINT_MOD)%Z ->
  (dim <= INT_MAX)%Z \/ (i < Z.to_nat INT_MAX)%nat ->
  at_coord k seed dim i g ->
  exists g', quasi_uniform env k g = (Ok (ndiv (coordinate env k seed dim i) (e_max env k)), g') /\
    at_coord k seed dim (S i) g'.
Proof.
  intros k seed dim i g D I (Q & Dm & Sd & q & Nx & Pt & St & E).
  unfold quasi_uniform. rewrite Dm.
  rewrite Z.mod_small by (unfold UINT_MOD in *; lia).
  destruct (Z.leb_spec dim (gStep g)) as [L|L].
  - cbn [gPoint gStep]. rewrite Sd, Nx. rewrite the_point_get by lia.
    change (0 =? INT_MAX)%Z with false. cbn [gQuasi gDim gSeed gNext gEngine gHist].
    eexists. split.
    + replace i with (S q * Z.to_nat dim + Z.to_nat 0)%nat by (assert (gStep g = dim) by lia; rewrite E, H; cbn; lia).
      rewrite coord_eq by lia. reflexivity.
    + unfold at_coord; cbn [gQuasi gDim gSeed gNext gPoint gStep]. repeat (split; [easy|]).
      exists (S q). repeat split; try easy; try lia.
  - rewrite Pt. rewrite the_point_get by lia.
    destruct (Z.eqb_spec (gStep g) INT_MAX) as [M|M].
    { exfalso. destruct I as [I|I]; [lia|]. rewrite M in E. nia. }
    eexists. split.
    + rewrite E, coord_eq by lia. reflexivity.
    + unfold at_coord; cbn [gQuasi gDim gSeed gNext gPoint gStep]. repeat (split; [easy|]).
      exists q. repeat split; try easy; try lia.
Qed.

Lemma quasi_overflow_at : forall k seed dim g, (INT_MAX < dim < UINT_MOD)%Z ->
  at_coord k seed dim (Z.to_nat INT_MAX) g -> exists g', quasi_uniform env k g = (UB, g').
Proof.
  intros k seed dim g D (Q & Dm & Sd & q & Nx & Pt & St & E).
  assert (LT : (Z.to_nat INT_MAX < Z.to_nat dim)%nat) by (unfold INT_MAX in *; lia).
  assert (q = 0%nat).
  { destruct q; [easy|]. exfalso. cbn [Nat.mul] in E. revert E. generalize (q * Z.to_nat dim)%nat. lia. }
  subst q.
  assert (gStep g = INT_MAX) by (change (0 * _)%nat with 0%nat in E; unfold INT_MAX in *; lia).
  unfold quasi_uniform. rewrite Dm, H, Z.mod_small by (unfold INT_MAX, UINT_MOD in *; lia).
  destruct (Z.leb_spec dim INT_MAX); [lia|].
  rewrite Pt, H, the_point_get by lia. rewrite Z.eqb_refl. now eexists.
Qed.

Lemma draw_at : forall k seed dim i g d, (1 <= dim < UINT_MOD)%Z ->
  (dim <= INT_MAX)%Z \/ (i < Z.to_nat INT_MAX)%nat ->
  at_coord k seed dim i g ->
  exists g', draw env d g = (inv_cdf d (ndiv (coordinate env k seed dim i) (e_max env k)), g') /\
    at_coord k seed dim (S i) g'.
Proof.
  intros k seed dim i g d D I A. pose proof A as (Q & _).
  destruct (quasi_uniform_at k seed dim i g D I A) as (g' & E & A').
  exists g'. split; [|easy]. unfold draw. rewrite Q. unfold sbind. rewrite E.
  unfold slift. reflexivity.
Qed.

Lemma draws_at : forall k seed dim ds i g, (1 <= dim < UINT_MOD)%Z ->
  (dim <= INT_MAX)%Z \/ (i + length ds <= Z.to_nat INT_MAX)%nat ->
  at_coord k seed dim i g ->
  fst (draws env ds g) =
    map (fun '(j, d) => inv_cdf d (ndiv (coordinate env k seed dim j) (e_max env k)))
        (combine (seq i (length ds)) ds) /\
  at_coord k seed dim (i + length ds) (snd (draws env ds g)).
Proof.
  intros k seed dim ds. induction ds as [|d ds IH]; intros i g D I A.
  - cbn. now rewrite Nat.add_0_r.
  - destruct (draw_at k seed dim i g d D) as (g' & E & A'); [cbn [length] in I; lia|easy|].
    cbn [draws]. rewrite E.
    destruct (IH (S i) g' D) as [F G]; [cbn [length] in I; lia|easy|].
    destruct (draws env ds g') as [os g2]. cbn [fst snd length] in *. cbn [seq combine map]. rewrite F. split; [easy|].
    now replace (i + S (length ds))%nat with (S (i + length ds)) by lia.
Qed.

(** ** Jump models on quasi-random generators *)

Definition qok (g : Gen T) : Prop :=
  exists k seed dim i, (1 <= dim <= INT_MAX)%Z /\ at_coord k seed dim i g.

Lemma qok_draws : forall k dim seed ds, (1 <= dim <= INT_MAX)%Z ->
  qok (snd (draws env ds (Quasi_ctor env k dim seed))).
Proof.
  intros. exists k, seed, dim, (0 + length ds)%nat. split; [easy|].
  apply draws_at. unfold INT_MAX, UINT_MOD in *; lia. left; lia. apply ctor_at; lia.
Qed.

Lemma qok_draw : forall g d, qok g -> exists q g', draw env d g = (inv_cdf d q, g') /\ qok g'.
Proof.
  intros g d (k & seed & dim & i & D & A).
  destruct (draw_at k seed dim i g d) as (g' & E & A'); try easy.
  { unfold INT_MAX, UINT_MOD in *; lia. } { left; lia. }
  exists (ndiv (coordinate env k seed dim i) (e_max env k)), g'. split; [easy|].
  now exists k, seed, dim, (S i).
Qed.

Lemma qok_new : forall g d, qok g ->
  (exists e, new_dist d g = (Throw e, g)) \/ (exists g', new_dist d g = (Ok d, g') /\ qok g' /\ gDim g' = gDim g).
Proof.
  intros g d (k & seed & dim & i & D & A). unfold new_dist.
  assert (Distr_ctor d = Ok d \/ exists e, Distr_ctor d = Throw e) as [-> | [e ->]].
  { destruct d; cbn; match goal with |- context[if ?b then _ else _] => destruct b end; eauto. }
  - right. eexists. split; [reflexivity|]. split; [|easy]. now exists k, seed, dim, i.
  - left. now exists e.
Qed.

Lemma qok_dim : forall g, qok g -> (1 <= gDim g <= INT_MAX)%Z.
Proof. intros g (k & seed & dim & i & D & A). destruct A as (_ & -> & _). easy. Qed.

Lemma siter_first_throws : forall {A} n i (body : Z -> A -> SM T A) (s : A) g e g',
  (0 < n)%nat -> body i s g = (Throw e, g') -> siter n i body s g = (Throw e, g').
Proof. intros A [|n] i body s g e g' N B; [lia|]. cbn. unfold sbind. now rewrite B. Qed.

Lemma sfor_int_first_throws : forall {A} n (body : Z -> A -> SM T A) (s : A) g e g',
  (1 <= n <= INT_MAX)%Z -> body 0%Z s g = (Throw e, g') -> sfor_int n body s g = (Throw e, g').
Proof.
  intros. unfold sfor_int. destruct (Z.leb_spec n INT_MAX); [|lia].
  apply siter_first_throws; [lia|easy].
Qed.

Lemma qok_draw_other : forall g d, qok g -> d <> DStdNormal ->
  exists g', draw env d g = (Throw LogicError, g').
Proof.
  intros g d Q N. destruct (qok_draw g d Q) as (q & g' & E & _). exists g'. rewrite E.
  destruct d; cbn; congruence.
Qed.

Lemma qok_draw_snd : forall g, qok g ->
  exists g', qok g' /\ ((exists x, draw env DStdNormal g = (Ok x, g')) \/
                        (exists e, draw env DStdNormal g = (Throw e, g'))).
Proof.
  intros g Q. destruct (qok_draw g DStdNormal Q) as (q & g' & E & Q'). exists g'. split; [easy|].
  rewrite E. pose proof (inv_cdf_not_UB DStdNormal q).
  destruct (inv_cdf DStdNormal q); [left|right|easy]; eauto.
Qed.

Lemma qok_draw_poisson : forall g l, qok g -> exists g', draw_poisson env l g = (Throw LogicError, g').
Proof.
  intros g l Q. pose proof Q as (k & seed & dim & i & D & (Qk & _)).
  destruct (qok_draw_other g (DPoisson l) Q) as (g' & E); [discriminate|].
  exists g'. unfold draw_poisson. rewrite Qk. unfold sbind. now rewrite E.
Qed.
End Quasi.
