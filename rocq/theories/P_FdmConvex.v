(** Properties C130 and C131: shape of the finite-difference values in the spot, and their
    order in the volatility. *)
From Coq Require Import String List ZArith Bool Lia Reals Lra Psatz.
From Flocq Require Import Core.
From Verif Require Import M_Num M_Outcome M_Dict M_Stock M_Market M_Payoff M_Option M_Numeric M_Fdm.
From Verif Require Import S_Market S_Model S_Numeric S_Fdm L_Dict L_Numeric L_Fdm L_Convex P_LinearSystem P_FdmMarch P_FdmScheme P_FdmPrice P_FdmCompare.
Import ListNotations.
Local Open Scope R_scope.

(** ** Layers *)
Definition read_layer (kind : SchemeKind) (i : nat) : nat := match kind with KExplicit => i | _ => (i + 1)%nat end.

Lemma bs_residual : forall kind sigma r q dt xDom J e i j, 0 < xDom -> (4 <= J)%Z -> (j < Z.to_nat J)%nat ->
  residual kind (bs_operator sigma r q) dt (xDom / (IZR J - 1)) (nodes xDom J) e i j =
  (e (i + 1)%nat j - e i j) / dt - lap sigma r q (e (read_layer kind i)) j.
Proof.
  intros kind sigma r q dt xDom J e i j HX HJ JJ. assert (PJ : 0 < IZR J - 1) by (assert (4 <= IZR J) by (apply IZR_le; lia); lra).
  unfold residual, nodes, el. rewrite nth_map_seq by lia. unfold node, read_layer. set (h := xDom / (IZR J - 1)).
  assert (HH : 0 < h) by (now apply Rdiv_lt_0_compat).
  unfold space, bs_operator, lap, bend. cbn [kd kc kr bs_coefs].
  destruct kind; match goal with |- ?x - ?a = ?x - ?b => enough (a = b) as -> by reflexivity end; field; lra.
Qed.

Lemma layers_convex : forall kind sigma r q dt xDom J m (f : nat -> list R), kind = KExplicit \/ kind = KImplicit ->
  0 < xDom -> (4 <= J)%Z -> 0 < dt -> 0 <= q -> Rabs (r - q) <= sigma * sigma ->
  let n := Z.to_nat J in let last := (n - 1)%nat in
  (kind = KExplicit -> forall j, (1 <= j < last)%nat -> dt * (sigma * sigma * INR j * INR j + q) <= 1) ->
  (forall j, (1 <= j < last)%nat -> 0 <= bend (el (f 0%nat)) j) ->
  (forall i, (i < m)%nat -> let a := f (read_layer kind i) in
     (forall j, (1 <= j < last)%nat -> residual kind (bs_operator sigma r q) dt (xDom / (IZR J - 1)) (nodes xDom J) (fun i j => el (f i) j) i j = 0) /\
     el (f i) 0 - dt * (r * el a 0) <= el (f (i + 1)%nat) 0 /\
     el (f i) last + dt * ((r - q) * INR last * (el a last - el a (last - 1)) - r * el a last) <= el (f (i + 1)%nat) last) ->
  forall i, (i <= m)%nat -> forall j, (1 <= j < last)%nat -> 0 <= bend (el (f i)) j.
Proof.
  intros kind sigma r q dt xDom J m f KK HX HJ DT Q0 PE n last CFL I0 ST.
  set (ext := fun (u : list R) j => if Nat.leb j last then el u j else 2 * el u last - el u (last - 1)).
  assert (EX : forall u j, (j <= last)%nat -> ext u j = el u j) by (intros u j JJ; unfold ext; destruct (Nat.leb_spec j last); [easy|lia]).
  assert (L3 : (3 <= last)%nat) by (unfold last, n; lia).
  assert (BE : forall u j, (1 <= j < last)%nat -> bend (ext u) j = bend (el u) j) by (intros u j JJ; unfold bend; rewrite !EX by lia; reflexivity).
  assert (B0 : forall u, bend (ext u) last = 0).
  { intros u. unfold bend. rewrite (EX u last), (EX u (last - 1)%nat) by lia. unfold ext. destruct (Nat.leb_spec (last + 1) last); [lia|]. ring. }
  assert (LE : forall u j, (1 <= j < last)%nat -> lap sigma r q (ext u) j = lap sigma r q (el u) j) by (intros u j JJ; unfold lap; rewrite BE, !EX by lia; reflexivity).
  assert (LL : forall u, lap sigma r q (ext u) last = (r - q) * INR last * (el u last - el u (last - 1)) - r * el u last).
  { intros u. unfold lap. rewrite B0, (EX u last), (EX u (last - 1)%nat) by lia. unfold ext. destruct (Nat.leb_spec (last + 1) last); [lia|]. field. }
  assert (L0 : forall u, lap sigma r q (ext u) 0 = - (r * el u 0)) by (intros u; unfold lap; rewrite (EX u 0%nat) by lia; cbn [INR]; field).
  induction i as [|i IH]; intros I; [exact I0|]. specialize (IH ltac:(lia)). destruct (ST i ltac:(lia)) as (RS & S0 & S1). cbn zeta in *.
  assert (EQ : forall j, (1 <= j < last)%nat -> el (f (i + 1)%nat) j - el (f i) j = dt * lap sigma r q (el (f (read_layer kind i))) j).
  { intros j JJ. specialize (RS j JJ). rewrite bs_residual in RS by (auto; unfold last, n in *; lia).
    cbn beta in RS. set (z := lap _ _ _ _ _) in RS |- *. set (y := el _ _ - el _ _) in RS |- *. replace y with (y / dt * dt) by (field; lra). rewrite Rmult_comm. f_equal. lra. }
  intros j JJ. replace (S i) with (i + 1)%nat by lia. rewrite <- BE by easy. revert j JJ. destruct KK as [-> | ->]; cbn [read_layer] in *.
  - apply (explicit_bend sigma r q dt DT PE last (ext (f i))); [lia|apply B0|intros; rewrite BE by easy; now apply IH| | | |].
    + intros j JJ. eapply Rle_trans; [|exact (CFL eq_refl j JJ)]. right. unfold pu, pd. field.
    + intros j JJ. rewrite LE, !EX by lia. specialize (EQ j JJ). lra.
    + rewrite L0, !EX by lia. lra.
    + rewrite LL, !EX by lia. lra.
  - apply (implicit_bend sigma r q dt DT Q0 PE last (ext (f i))); [lia|apply B0|intros; rewrite BE by easy; now apply IH| | |].
    + intros j JJ. rewrite LE, !EX by lia. specialize (EQ j JJ). lra.
    + rewrite L0, !EX by lia. lra.
    + rewrite LL, !EX by lia. lra.
Qed.

(** The payoff is convex along equidistant nodes. *)
Lemma exercise_bend : forall ty K xDom J (u : nat -> R) j, ty = Call \/ ty = Put -> (1 <= j)%nat ->
  (forall i, (i <= j + 1)%nat -> u i = exercise ty K (node xDom J i)) -> 0 <= bend u j.
Proof.
  intros ty K xDom J u j TY JJ E. unfold bend. rewrite !E by lia. unfold node. set (h := xDom / (IZR J - 1)).
  assert (A : INR (j + 1) = INR j + 1) by (rewrite plus_INR; reflexivity). assert (B : INR (j - 1) = INR j - 1) by (rewrite minus_INR by lia; reflexivity).
  rewrite A, B. replace ((INR j + 1) * h) with (INR j * h + h) by ring. replace ((INR j - 1) * h) with (INR j * h - h) by ring. set (x := INR j * h).
  unfold exercise. destruct TY as [-> | ->]; unfold Rmax; destruct (Rle_dec _ _), (Rle_dec _ _), (Rle_dec _ _); lra.
Qed.

(** The layers of a put: convex and nonnegative. *)
Lemma put_layers : forall kind lu xDom J tDom N K o cf s w d,
  gridded kind xDom J tDom N -> vanilla_solver kind xDom J tDom N Put K o cf s -> read (optTicker o) w = Ok d ->
  calm kind J tDom N (sigma_ d) (mR w) (dividend d) -> 0 <= K <= xDom -> 0 <= dividend d <= mR w ->
  let n := Z.to_nat J in let m := Z.to_nat (N - 1) in let dt := tDom / (IZR N - 1) in let h := xDom / (IZR J - 1) in
  exists v s' (f : nat -> list R), (forall fuel, (m <= fuel)%nat -> solve lu cf w fuel s = Some (Ok v, s')) /\ f m = v /\
    (forall j, (j < n)%nat -> el (f 0%nat) j = exercise Put K (node xDom J j)) /\
    (forall i, (i <= m)%nat -> el (f i) 0 = K /\ el (f i) (n - 1) = 0 /\
       (forall j, (j < n)%nat -> 0 <= el (f i) j) /\ forall j, (1 <= j < n - 1)%nat -> 0 <= bend (el (f i)) j) /\
    forall i j, (i < m)%nat -> (1 <= j <= n - 2)%nat ->
      residual kind (bs_operator (sigma_ d) (mR w) (dividend d)) dt h (nodes xDom J) (fun i j => el (f i) j) i j = 0.
Proof.
  intros kind lu xDom J tDom N K o cf s w d G V RD CA KX QR n m dt h.
  destruct (vanilla_layers kind lu xDom J tDom N Put K o cf s w d G V RD (fun _ => CA)) as (_ & v & s' & f & SO & FM & I0 & L).
  pose proof G as (KK & HJ & MX & HN & HX & HT). fold n in I0, L. fold m in SO, FM, L. fold dt h in L.
  assert (PN : 0 < IZR N - 1) by (assert (2 <= IZR N) by (apply IZR_le; lia); lra).
  assert (PJ : 0 < IZR J - 1) by (assert (4 <= IZR J) by (apply IZR_le; lia); lra).
  assert (DT : 0 < dt) by (now apply Rdiv_lt_0_compat). assert (HH : 0 < h) by (now apply Rdiv_lt_0_compat).
  assert (NJ : INR n = IZR J) by (unfold n; rewrite INR_IZR_INZ, Z2Nat.id by lia; easy).
  assert (N4 : (4 <= n)%nat) by (unfold n; lia).
  set (op := bs_operator (sigma_ d) (mR w) (dividend d)) in *.
  exists v, s', f. split; [exact SO|]. split; [exact FM|]. split; [exact I0|].
  assert (LEFT : forall i, (i <= m)%nat -> el (f i) 0 = K).
  { intros [|i] I; [|replace (S i) with (i + 1)%nat by lia; now destruct (L i ltac:(lia)) as (_ & -> & _)]. rewrite I0 by lia. unfold exercise, node. cbn [INR]. rewrite Rmult_0_l, Rminus_0_r. apply Rmax_left. lra. }
  assert (RIGHT : forall i, (i <= m)%nat -> el (f i) (n - 1) = 0).
  { intros [|i] I; [|replace (S i) with (i + 1)%nat by lia; now destruct (L i ltac:(lia)) as (_ & _ & -> & _)]. rewrite I0 by lia. unfold exercise, node. rewrite minus_INR, NJ by lia.
    change (INR 1) with 1. replace ((IZR J - 1) * (xDom / (IZR J - 1))) with xDom by (field; lra). apply Rmax_right. lra. }
  assert (POS : forall i j, (i <= m)%nat -> (j < n)%nat -> 0 <= el (f i) j).
  { apply (march_positive kind op dt h (nodes xDom J) n m (fun i j => el (f i) j) KK HH DT); [lia| | | |].
    - intros i I. now apply bs_no_oscillation.
    - intros j JJ. rewrite I0 by easy. apply Rmax_r.
    - intros i I. rewrite LEFT, RIGHT by lia. lra.
    - intros i j I JJ. destruct (L i I) as (_ & _ & _ & ->); [lra|easy]. }
  split; [|intros i j I JJ; now apply (L i I)].
  intros i I. split; [now apply LEFT|]. split; [now apply RIGHT|]. split; [intros; now apply POS|].
  destruct CA as (CV & R0 & CFL).
  apply (layers_convex kind (sigma_ d) (mR w) (dividend d) dt xDom J m f KK HX ltac:(lia) DT ltac:(lra) CV); [| | |exact I].
  - intros KE j JJ. eapply Rle_trans; [|exact (CFL KE)]. fold dt. apply Rmult_le_compat_l; [lra|].
    assert (0 <= INR j) by apply pos_INR. fold n in JJ.
    assert (INR j <= IZR J - 2) by (rewrite <- NJ; change 2 with (INR 2); rewrite <- (minus_INR _ 2) by lia; apply le_INR; lia).
    assert (INR j * INR j <= (IZR J - 2) * (IZR J - 2)) by (apply Rmult_le_compat; lra).
    assert (sigma_ d * sigma_ d * (INR j * INR j) <= sigma_ d * sigma_ d * ((IZR J - 2) * (IZR J - 2))) by (apply Rmult_le_compat_l; [nra|easy]). lra.
  - intros j JJ. apply (exercise_bend Put K xDom J); [now right|lia|]. intros i' I'. apply I0. fold n in JJ. lia.
  - intros i' I'. cbn zeta. fold n h. split; [intros j JJ; apply (L i' I'); lia|].
    assert (RL : (read_layer kind i' <= m)%nat) by (destruct KK as [-> | ->]; cbn; lia).
    rewrite !LEFT, !RIGHT by lia. split; [assert (0 <= dt * (mR w * K)) by (apply Rmult_le_pos; [lra|]; apply Rmult_le_pos; lra); lra|].
    pose proof (POS (read_layer kind i') (n - 1 - 1)%nat RL ltac:(lia)) as P. pose proof (pos_INR (n - 1)) as PI.
    assert (0 <= dt * ((mR w - dividend d) * INR (n - 1) * el (f (read_layer kind i')) (n - 1 - 1))).
    { apply Rmult_le_pos; [lra|]. apply Rmult_le_pos; [|exact P]. apply Rmult_le_pos; lra. } lra.
Qed.

(** Nonnegative second differences make the slopes of all chords increase. *)
Lemma chords : forall (v : nat -> R) n h, 0 < h -> (forall j, (1 <= j < n - 1)%nat -> 0 <= bend v j) ->
  (forall i j, (i <= j)%nat -> (j + 1 < n)%nat -> v (i + 1)%nat - v i <= v (j + 1)%nat - v j) /\
  (forall i j k, (i < j < k)%nat -> (k < n)%nat -> (v j - v i) / (INR j * h - INR i * h) <= (v k - v j) / (INR k * h - INR j * h)).
Proof.
  intros v n h HH BE. set (g := fun j => v (j + 1)%nat - v j).
  assert (GS : forall j, (j + 2 < n)%nat -> g j <= g (j + 1)%nat).
  { intros j JJ. specialize (BE (j + 1)%nat ltac:(lia)). unfold bend in BE. unfold g. replace (j + 1 - 1)%nat with j in BE by lia. lra. }
  assert (GM : forall k j, (j + k + 1 < n)%nat -> g j <= g (j + k)%nat).
  { induction k as [|k IH]; intros j JJ; [rewrite Nat.add_0_r; lra|]. eapply Rle_trans; [apply IH; lia|]. replace (j + S k)%nat with (j + k + 1)%nat by lia. apply GS. lia. }
  assert (GL : forall i j, (i <= j)%nat -> (j + 1 < n)%nat -> g i <= g j).
  { intros i j IJ JN. pose proof (GM (j - i)%nat i ltac:(lia)) as Q. now replace (i + (j - i))%nat with j in Q by lia. }
  split; [exact GL|].
  assert (TS : forall k i, (i + k < n)%nat -> (forall b, (forall a, (i <= a < i + k)%nat -> g a <= b) -> v (i + k)%nat - v i <= INR k * b) /\
                          (forall b, (forall a, (i <= a < i + k)%nat -> b <= g a) -> INR k * b <= v (i + k)%nat - v i)).
  { induction k as [|k IH]; intros i I; [rewrite Nat.add_0_r; cbn [INR]; split; intros; lra|]. destruct (IH i ltac:(lia)) as [U D]. rewrite S_INR.
    assert (E : v (i + S k)%nat - v (i + k)%nat = g (i + k)%nat) by (unfold g; do 2 f_equal; lia). split; intros b Hb.
    - specialize (U b ltac:(intros; apply Hb; lia)). specialize (Hb (i + k)%nat ltac:(lia)). lra.
    - specialize (D b ltac:(intros; apply Hb; lia)). specialize (Hb (i + k)%nat ltac:(lia)). lra. }
  intros i j k IJ KN.
  destruct (TS (j - i)%nat i ltac:(lia)) as [U _]. destruct (TS (k - j)%nat j ltac:(lia)) as [_ D].
  specialize (U (g j)). specialize (D (g j)). replace (i + (j - i))%nat with j in U by lia. replace (j + (k - j))%nat with k in D by lia.
  assert (UU : v j - v i <= INR (j - i) * g j) by (apply U; intros a A; apply GL; lia).
  assert (DD : INR (k - j) * g j <= v k - v j) by (apply D; intros a A; apply GL; lia).
  rewrite minus_INR in UU, DD by lia.
  assert (P1 : 0 < INR j - INR i) by (assert (INR i < INR j) by (apply lt_INR; lia); lra).
  assert (P2 : 0 < INR k - INR j) by (assert (INR j < INR k) by (apply lt_INR; lia); lra).
  apply Rle_trans with (g j / h).
  - apply (Rmult_le_reg_r (INR j * h - INR i * h)); [nra|]. unfold Rdiv at 1. rewrite Rmult_assoc, Rinv_l, Rmult_1_r by nra. eapply Rle_trans; [exact UU|]. right. field. lra.
  - apply (Rmult_le_reg_r (INR k * h - INR j * h)); [nra|]. unfold Rdiv at 2. rewrite Rmult_assoc, Rinv_l, Rmult_1_r by nra. eapply Rle_trans; [|exact DD]. right. field. lra.
Qed.
Lemma falls : forall (v : nat -> R) n, (forall j, (j + 1 < n)%nat -> v (j + 1)%nat <= v j) -> forall i j, (i <= j)%nat -> (j < n)%nat -> v j <= v i.
Proof.
  intros v n H i j IJ. induction IJ as [|j IJ IH]; intros JN; [lra|]. specialize (IH ltac:(lia)). specialize (H j ltac:(lia)). rewrite Nat.add_1_r in H. lra.
Qed.

(** ** C130: the values of a put are convex in the spot, and fall. *)
Theorem C130_put_partial : forall kind lu xDom J tDom N K o cf s w d,
  gridded kind xDom J tDom N -> vanilla_solver kind xDom J tDom N Put K o cf s -> read (optTicker o) w = Ok d ->
  calm kind J tDom N (sigma_ d) (mR w) (dividend d) -> 0 <= K <= xDom -> 0 <= dividend d <= mR w ->
  exists v s', (forall fuel, (Z.to_nat (N - 1) <= fuel)%nat -> solve lu cf w fuel s = Some (Ok v, s')) /\
    forall i j k, (i < j < k)%nat -> (k < Z.to_nat J)%nat ->
      el v j <= el v i /\ (el v j - el v i) / (node xDom J j - node xDom J i) <= (el v k - el v j) / (node xDom J k - node xDom J j).
Proof.
  intros kind lu xDom J tDom N K o cf s w d G V RD CA KX QR.
  destruct (put_layers kind lu xDom J tDom N K o cf s w d G V RD CA KX QR) as (v & s' & f & SO & FM & _ & B & _).
  exists v, s'. split; [exact SO|]. destruct (B _ (le_n _)) as (_ & RI & PO & BE). rewrite FM in RI, PO, BE. clear B FM.
  pose proof G as (_ & HJ & _ & _ & HX & _). assert (PJ : 0 < IZR J - 1) by (assert (4 <= IZR J) by (apply IZR_le; lia); lra).
  set (n := Z.to_nat J) in *. set (h := xDom / (IZR J - 1)) in *. assert (HH : 0 < h) by (now apply Rdiv_lt_0_compat).
  destruct (chords (el v) n h HH BE) as [GL CH]. intros i j k IJ KN. split; [|now apply CH].
  apply (falls (el v) n); [|lia|lia]. intros a A. specialize (GL a (n - 2)%nat ltac:(lia) ltac:(lia)).
  pose proof (PO (n - 2)%nat ltac:(lia)). replace (n - 2 + 1)%nat with (n - 1)%nat in GL by lia. lra.
Qed.
Print Assumptions C130_put_partial.

(** ** C131: a higher volatility gives no lower value of a put. *)
Theorem C131_volatility : forall kind lu xDom J tDom N K o1 o2 cf1 s1 cf2 s2 w1 w2 d1 d2,
  gridded kind xDom J tDom N ->
  vanilla_solver kind xDom J tDom N Put K o1 cf1 s1 -> vanilla_solver kind xDom J tDom N Put K o2 cf2 s2 ->
  read (optTicker o1) w1 = Ok d1 -> read (optTicker o2) w2 = Ok d2 ->
  calm kind J tDom N (sigma_ d1) (mR w1) (dividend d1) -> calm kind J tDom N (sigma_ d2) (mR w2) (dividend d2) ->
  0 <= K <= xDom -> 0 <= dividend d1 <= mR w1 -> mR w1 = mR w2 -> dividend d1 = dividend d2 -> 0 <= sigma_ d1 <= sigma_ d2 ->
  exists v1 v2 s1' s2', (forall fuel, (Z.to_nat (N - 1) <= fuel)%nat ->
      solve lu cf1 w1 fuel s1 = Some (Ok v1, s1') /\ solve lu cf2 w2 fuel s2 = Some (Ok v2, s2')) /\
    forall j, (j < Z.to_nat J)%nat -> el v1 j <= el v2 j.
Proof.
  intros kind lu xDom J tDom N K o1 o2 cf1 s1 cf2 s2 w1 w2 d1 d2 G V1 V2 RD1 RD2 CA1 CA2 KX QR ER EQ SG.
  destruct (put_layers kind lu xDom J tDom N K o1 cf1 s1 w1 d1 G V1 RD1 CA1 KX QR) as (v1 & s1' & f1 & SO1 & FM1 & I1 & B1 & L1).
  rewrite ER, EQ in QR. destruct (put_layers kind lu xDom J tDom N K o2 cf2 s2 w2 d2 G V2 RD2 CA2 KX QR) as (v2 & s2' & f2 & SO2 & FM2 & I2 & B2 & L2).
  exists v1, v2, s1', s2'. split; [intros fuel F; split; auto|].
  pose proof G as (KK & HJ & MX & HN & HX & HT).
  assert (PN : 0 < IZR N - 1) by (assert (2 <= IZR N) by (apply IZR_le; lia); lra).
  assert (PJ : 0 < IZR J - 1) by (assert (4 <= IZR J) by (apply IZR_le; lia); lra).
  assert (DT : 0 < tDom / (IZR N - 1)) by (now apply Rdiv_lt_0_compat).
  assert (HH : 0 < xDom / (IZR J - 1)) by (now apply Rdiv_lt_0_compat).
  assert (P : forall i j, (i <= Z.to_nat (N - 1))%nat -> (j < Z.to_nat J)%nat -> 0 <= el (f2 i) j - el (f1 i) j).
  { apply (march_positive kind (bs_operator (sigma_ d2) (mR w2) (dividend d2)) _ _ (nodes xDom J) _ _ (fun i j => el (f2 i) j - el (f1 i) j) KK HH DT); [lia| | | |].
    - intros i I. now apply bs_no_oscillation.
    - intros j JJ. rewrite I1, I2 by easy. lra.
    - intros i I. destruct (B1 (i + 1)%nat ltac:(lia)) as (-> & -> & _). destruct (B2 (i + 1)%nat ltac:(lia)) as (-> & -> & _). lra.
    - intros i j I JJ. rewrite residual_minus. rewrite (L2 i j I JJ). rewrite bs_residual by (auto; lia).
      pose proof (L1 i j I JJ) as R1. rewrite bs_residual in R1 by (auto; lia). rewrite ER, EQ in R1.
      assert (RL : (read_layer kind i <= Z.to_nat (N - 1))%nat) by (destruct KK as [-> | ->]; cbn; lia).
      destruct (B1 _ RL) as (_ & _ & _ & BE). specialize (BE j ltac:(lia)).
      set (a := fun j => el (f1 (read_layer kind i)) j) in *. change (0 <= bend a j) in BE.
      change (lap (sigma_ d1) (mR w2) (dividend d2) (el (f1 (read_layer kind i))) j) with (lap (sigma_ d1) (mR w2) (dividend d2) a j) in R1.
      assert (D : lap (sigma_ d2) (mR w2) (dividend d2) a j = lap (sigma_ d1) (mR w2) (dividend d2) a j + (sigma_ d2 * sigma_ d2 - sigma_ d1 * sigma_ d1) * (INR j * INR j) / 2 * bend a j) by (unfold lap; field).
      rewrite D. assert (S : 0 <= sigma_ d2 * sigma_ d2 - sigma_ d1 * sigma_ d1) by nra.
      assert (0 <= (sigma_ d2 * sigma_ d2 - sigma_ d1 * sigma_ d1) * (INR j * INR j) / 2 * bend a j).
      { apply Rmult_le_pos; [|exact BE]. apply Rmult_le_pos; [|lra]. apply Rmult_le_pos; [exact S|nra]. } lra. }
  intros j JJ. specialize (P _ j (le_n _) JJ). rewrite FM1, FM2 in P. lra.
Qed.
Print Assumptions C131_volatility.

(** ** Calls: with rate 0 the values are convex and rise with the spot. *)
Theorem C130_call_zero_rate : forall kind lu xDom J tDom N K o cf s w d,
  gridded kind xDom J tDom N -> vanilla_solver kind xDom J tDom N Call K o cf s -> read (optTicker o) w = Ok d ->
  calm kind J tDom N (sigma_ d) (mR w) (dividend d) -> 0 <= K <= xDom -> mR w = 0 -> 0 <= dividend d ->
  (kind = KExplicit -> tDom / (IZR N - 1) * (sigma_ d * sigma_ d * ((IZR J - 2) * (IZR J - 2)) + dividend d) <= 1) ->
  exists v s', (forall fuel, (Z.to_nat (N - 1) <= fuel)%nat -> solve lu cf w fuel s = Some (Ok v, s')) /\
    forall i j k, (i < j < k)%nat -> (k < Z.to_nat J)%nat ->
      el v i <= el v j /\ (el v j - el v i) / (node xDom J j - node xDom J i) <= (el v k - el v j) / (node xDom J k - node xDom J j).
Proof.
  intros kind lu xDom J tDom N K o cf s w d G V RD CA KX RZ QZ CFLQ.
  destruct (vanilla_layers kind lu xDom J tDom N Call K o cf s w d G V RD (fun _ => CA)) as (_ & v & s' & f & SO & FM & I0 & L).
  pose proof G as (KK & HJ & MX & HN & HX & HT).
  set (n := Z.to_nat J) in *. set (m := Z.to_nat (N - 1)) in *. set (dt := tDom / (IZR N - 1)) in *. set (h := xDom / (IZR J - 1)) in *.
  assert (PN : 0 < IZR N - 1) by (assert (2 <= IZR N) by (apply IZR_le; lia); lra).
  assert (PJ : 0 < IZR J - 1) by (assert (4 <= IZR J) by (apply IZR_le; lia); lra).
  assert (DT : 0 < dt) by (now apply Rdiv_lt_0_compat). assert (HH : 0 < h) by (now apply Rdiv_lt_0_compat).
  assert (NJ : INR n = IZR J) by (unfold n; rewrite INR_IZR_INZ, Z2Nat.id by lia; easy).
  assert (N4 : (4 <= n)%nat) by (unfold n; lia).
  exists v, s'. split; [exact SO|].
  assert (LEFT : forall i, (i <= m)%nat -> el (f i) 0 = 0).
  { intros [|i] I; [|replace (S i) with (i + 1)%nat by lia; now destruct (L i ltac:(lia)) as (_ & -> & _)]. rewrite I0 by lia. unfold exercise, node. cbn [INR]. rewrite Rmult_0_l. apply Rmax_right. lra. }
  assert (RIGHT : forall i, (i <= m)%nat -> el (f i) (n - 1) = xDom - K).
  { intros [|i] I.
    - rewrite I0 by lia. unfold exercise, node. rewrite minus_INR, NJ by lia.
      change (INR 1) with 1. replace ((IZR J - 1) * (xDom / (IZR J - 1))) with xDom by (field; lra). apply Rmax_left. lra.
    - replace (S i) with (i + 1)%nat by lia. destruct (L i ltac:(lia)) as (_ & _ & -> & _). cbn [kg bs_coefs]. rewrite RZ, Ropp_0, Rmult_0_l, exp_0. ring. }
  set (op := bs_operator (sigma_ d) (mR w) (dividend d)) in *.
  assert (POS : forall i j, (i <= m)%nat -> (j < n)%nat -> 0 <= el (f i) j).
  { apply (march_positive kind op dt h (nodes xDom J) n m (fun i j => el (f i) j) KK HH DT); [lia| | | |].
    - intros i I. now apply bs_no_oscillation.
    - intros j JJ. rewrite I0 by easy. apply Rmax_r.
    - intros i I. rewrite LEFT, RIGHT by lia. lra.
    - intros i j I JJ. destruct (L i I) as (_ & _ & _ & ->); [lra|easy]. }
  assert (TOP : forall i j, (i <= m)%nat -> (j < n)%nat -> 0 <= (xDom - K) - el (f i) j).
  { apply (march_positive kind op dt h (nodes xDom J) n m (fun i j => (xDom - K) - el (f i) j) KK HH DT); [lia| | | |].
    - intros i I. now apply bs_no_oscillation.
    - intros j JJ. rewrite I0 by easy. unfold exercise, node. fold h.
      assert (INR j <= IZR J - 1) by (rewrite <- NJ; change 1 with (INR 1); rewrite <- (minus_INR _ 1) by lia; apply le_INR; lia).
      assert (INR j * h <= (IZR J - 1) * h) by (apply Rmult_le_compat_r; lra). replace ((IZR J - 1) * h) with xDom in * by (unfold h; field; lra).
      unfold Rmax. destruct (Rle_dec _ _); lra.
    - intros i I. rewrite LEFT, RIGHT by lia. lra.
    - intros i j I JJ. rewrite residual_minus. destruct (L i I) as (_ & _ & _ & ->); [|easy]. unfold op, h. rewrite bs_residual by (auto; unfold n in *; lia).
      right. unfold lap, bend. rewrite RZ. unfold Rdiv. ring. }
  destruct CA as (CV & R0 & CFL). rewrite RZ in CV.
  assert (BE : forall j, (1 <= j < n - 1)%nat -> 0 <= bend (el (f m)) j).
  { apply (layers_convex kind (sigma_ d) 0 (dividend d) dt xDom J m f KK HX ltac:(lia) DT ltac:(lra) CV); [| | |apply le_n].
    - intros KE j JJ. eapply Rle_trans; [|exact (CFLQ KE)]. apply Rmult_le_compat_l; [lra|].
      assert (0 <= INR j) by apply pos_INR. fold n in JJ.
      assert (INR j <= IZR J - 2) by (rewrite <- NJ; change 2 with (INR 2); rewrite <- (minus_INR _ 2) by lia; apply le_INR; lia).
      assert (INR j * INR j <= (IZR J - 2) * (IZR J - 2)) by (apply Rmult_le_compat; lra).
      assert (sigma_ d * sigma_ d * (INR j * INR j) <= sigma_ d * sigma_ d * ((IZR J - 2) * (IZR J - 2))) by (apply Rmult_le_compat_l; [nra|easy]). lra.
    - intros j JJ. apply (exercise_bend Call K xDom J); [now left|lia|]. intros i' I'. apply I0. fold n in JJ. lia.
    - intros i' I'. cbn zeta. fold n h. split; [intros j JJ; destruct (L i' I') as (_ & _ & _ & RS); unfold op in RS; rewrite RZ in RS; apply RS; lia|].
      assert (RL : (read_layer kind i' <= m)%nat) by (destruct KK as [-> | ->]; cbn; lia).
      rewrite !LEFT, !RIGHT by lia. split; [lra|].
      pose proof (TOP (read_layer kind i') (n - 1 - 1)%nat RL ltac:(lia)) as P. pose proof (pos_INR (n - 1)) as PI.
      assert (0 <= dt * (dividend d * INR (n - 1) * (xDom - K - el (f (read_layer kind i')) (n - 1 - 1)))).
      { apply Rmult_le_pos; [lra|]. apply Rmult_le_pos; [|exact P]. apply Rmult_le_pos; lra. } lra. }
  destruct (chords (el (f m)) n h HH BE) as [GL CH]. rewrite FM in *. intros i j k IJ KN. split; [|now apply CH].
  enough (- el v j <= - el v i) by lra. apply (falls (fun j => - el v j) n); [|lia|lia]. intros a A. specialize (GL 0%nat a ltac:(lia) ltac:(lia)).
  pose proof (POS m 1%nat ltac:(lia) ltac:(lia)) as P1. pose proof (LEFT m ltac:(lia)) as P0. rewrite FM in P0, P1. cbn [Nat.add] in GL. lra.
Qed.
Print Assumptions C130_call_zero_rate.

(** With a positive rate a call can fall when the spot rises, and is not convex: the value
    imposed at the last node starts at xDom - K exp(-rT) and ends at xDom - K exp(-r dt),
    while the inner nodes remember the larger values. *)
Theorem C130_call_refuted : forall lu mem, exists o w d cf s v s',
  gridded KExplicit 3 4 (2 / 5) 3 /\ calm KExplicit 4 (2 / 5) 3 (sigma_ d) (mR w) (dividend d) /\
  vanilla_solver KExplicit 3 4 (2 / 5) 3 Call 3 o cf s /\ read (optTicker o) w = Ok d /\ optT o = 2 / 5 /\ dividend d = 0 /\ mR w = 1 /\
  Fdm_ctor KExplicit 3 4 (2 / 5) 3 (BlackScholesPDE o) o None (Some ThomasAlgorithm) mem w = Ok (cf, s) /\
  (forall fuel, (2 <= fuel)%nat -> solve lu cf w fuel s = Some (Ok v, s')) /\
  el v 3 < el v 2 /\ el v 1 + el v 3 < 2 * el v 2.
Proof.
  intros lu mem. set (o := o_bs Call 3 (2 / 5)). set (w := w_bs 1 1 1). set (d := mkStock 1 1 None : StockData R).
  destruct (ctor_total _ _ KExplicit 3 4 (2 / 5) 3 (BlackScholesPDE o) o None (Some ThomasAlgorithm) mem w (initial_total Call 3 (2 / 5) w) ltac:(lia)) as (cf & s & E).
  assert (G : gridded KExplicit 3 4 (2 / 5) 3) by (split; [auto|]; unfold ULONG_MOD, INT_MAX; repeat split; first [lia|lra]).
  assert (VS : vanilla_solver KExplicit 3 4 (2 / 5) 3 Call 3 o cf s) by (split; [now left|]; split; [reflexivity|]; eauto).
  assert (RD : read (optTicker o) w = Ok d) by reflexivity.
  assert (CA : calm KExplicit 4 (2 / 5) 3 (sigma_ d) (mR w) (dividend d)).
  { split; [cbn; rewrite Rminus_0_r, Rabs_pos_eq; lra|]. split; [cbn; lra|]. intros _. cbn. lra. }
  destruct (vanilla_layers KExplicit lu 3 4 (2 / 5) 3 Call 3 o cf s w d G VS RD (fun _ => CA)) as (_ & v & s' & f & SO & FM & I0 & L).
  exists o, w, d, cf, s, v, s'. do 7 (split; [assumption || reflexivity|]). split; [exact E|]. split; [exact SO|].
  change (Z.to_nat (3 - 1)) with 2%nat in *. change (Z.to_nat 4) with 4%nat in *. cbn [Nat.sub] in L.
  assert (Z0 : forall j, (j < 4)%nat -> el (f 0%nat) j = 0).
  { intros j JJ. rewrite I0 by easy. unfold exercise, node. apply Rmax_right. assert (INR j <= 3) by (replace 3 with (INR 3) by (cbn; ring); apply le_INR; lia). lra. }
  destruct (L 0%nat ltac:(lia)) as (_ & A0 & A3 & A). destruct (L 1%nat ltac:(lia)) as (_ & B0 & B3 & B).
  pose proof (A 1%nat ltac:(lia)) as A1. pose proof (A 2%nat ltac:(lia)) as A2. pose proof (B 1%nat ltac:(lia)) as B1. pose proof (B 2%nat ltac:(lia)) as B2. clear A B.
  rewrite bs_residual in A1, A2, B1, B2 by (lra || lia || (cbn; lia)). unfold lap, bend in *. cbn [read_layer Nat.add Nat.sub] in *.
  rewrite !Z0 in A1, A2 by lia. cbn [sigma_ d mR w w_bs dividend c_ kl kg bs_coefs read_time INR Nat.add optT o o_bs] in *.
  rewrite FM in *.
  assert (X1 : el (f 1%nat) 1 = 0) by lra. assert (X2 : el (f 1%nat) 2 = 0) by lra.
  rewrite X1, X2, A0 in B1. rewrite X1, X2, A3 in B2.
  assert (V1 : el v 1 = 0) by lra.
  set (y := exp (- (1) * (2 / 5 - 1 * (2 / 5 / (3 - 1))))) in *.
  assert (YY : exp (- (1) * (2 / 5 - 0 * (2 / 5 / (3 - 1)))) = y * y) by (unfold y; rewrite <- exp_plus; f_equal; field).
  rewrite YY in B2. assert (YB : 4 / 5 <= y < 1).
  { split; [|assert (Y1 : y < exp 0) by (apply exp_increasing; lra); rewrite exp_0 in Y1; exact Y1].
    unfold y. pose proof (exp_ineq1_le (- (1) * (2 / 5 - 1 * (2 / 5 / (3 - 1))))). lra. }
  clearbody y. rewrite V1, B3. assert (V2 : el v 2 = 9 / 5 * (1 - y * y)) by lra. rewrite V2. split; nra.
Qed.
Print Assumptions C130_call_refuted.

(** ** Cases that meet the hypotheses *)
(** C130, C131, both schemes: a put struck at 2 on five nodes, volatilities 3/4 and 1, rate
    1/10, dividend yield 1/20. *)
Definition w_div (sigma r q : R) : Market R := mkMarket r [("A"%string, 0%nat)] [] [mkStock 1 sigma (Some q)] [].
Example C130_C131_ex : forall kind lu mem, kind = KExplicit \/ kind = KImplicit ->
  let w1 := w_div (3 / 4) (1 / 10) (1 / 20) in let w2 := w_div 1 (1 / 10) (1 / 20) in let o := o_bs Put 2 1 in
  exists cf1 s1 cf2 s2 v1 v2 s1' s2',
    Fdm_ctor kind 4 5 1 11 (BlackScholesPDE o) o None (Some ThomasAlgorithm) mem w1 = Ok (cf1, s1) /\
    Fdm_ctor kind 4 5 1 11 (BlackScholesPDE o) o None (Some ThomasAlgorithm) mem w2 = Ok (cf2, s2) /\
    solve lu cf1 w1 10 s1 = Some (Ok v1, s1') /\ solve lu cf2 w2 10 s2 = Some (Ok v2, s2') /\
    (forall j, (j < 5)%nat -> el v1 j <= el v2 j) /\
    (el v1 2 - el v1 1) / (2 - 1) <= (el v1 4 - el v1 2) / (4 - 2).
Proof.
  intros kind lu mem KK w1 w2 o.
  destruct (ctor_total _ _ kind 4 5 1 11 (BlackScholesPDE o) o None (Some ThomasAlgorithm) mem w1 (initial_total Put 2 1 w1) ltac:(lia)) as (cf1 & s1 & E1).
  destruct (ctor_total _ _ kind 4 5 1 11 (BlackScholesPDE o) o None (Some ThomasAlgorithm) mem w2 (initial_total Put 2 1 w2) ltac:(lia)) as (cf2 & s2 & E2).
  assert (G : gridded kind 4 5 1 11) by (split; [auto|]; unfold ULONG_MOD, INT_MAX; repeat split; first [lia|lra]).
  assert (V1 : vanilla_solver kind 4 5 1 11 Put 2 o cf1 s1) by (split; [now right|]; split; [reflexivity|]; eauto).
  assert (V2 : vanilla_solver kind 4 5 1 11 Put 2 o cf2 s2) by (split; [now right|]; split; [reflexivity|]; eauto).
  assert (CA1 : calm kind 5 1 11 (3 / 4) (1 / 10) (1 / 20)) by (split; [rewrite Rabs_pos_eq; lra|]; split; [lra|]; intros _; lra).
  assert (CA2 : calm kind 5 1 11 1 (1 / 10) (1 / 20)) by (split; [rewrite Rabs_pos_eq; lra|]; split; [lra|]; intros _; lra).
  destruct (C131_volatility kind lu 4 5 1 11 2 o o cf1 s1 cf2 s2 w1 w2 (mkStock 1 (3 / 4) (Some (1 / 20))) (mkStock 1 1 (Some (1 / 20))) G V1 V2) as (v1 & v2 & s1' & s2' & SO & B);
    try reflexivity; try exact CA1; try exact CA2; try (cbn; lra).
  destruct (C130_put_partial kind lu 4 5 1 11 2 o cf1 s1 w1 (mkStock 1 (3 / 4) (Some (1 / 20))) G V1) as (u1 & t1 & SO' & B'); try reflexivity; try exact CA1; try (cbn; lra).
  destruct (SO 10%nat) as [A1 A2]; [cbn; lia|]. specialize (SO' 10%nat ltac:(cbn; lia)). assert (u1 = v1) by congruence. subst u1.
  exists cf1, s1, cf2, s2, v1, v2, s1', s2'. repeat (split; [assumption|]).
  destruct (B' 1%nat 2%nat 4%nat ltac:(lia) ltac:(cbn; lia)) as [_ C]. unfold node in C. cbn [INR] in C.
  replace ((1 + 1) * (4 / (5 - 1)) - 1 * (4 / (5 - 1))) with (2 - 1) in C by field. replace ((1 + 1 + 1 + 1) * (4 / (5 - 1)) - (1 + 1) * (4 / (5 - 1))) with (4 - 2) in C by field. exact C.
Qed.
