(** * GR_SVD: in exact arithmetic a 3 x 3 bidiagonal matrix never becomes reduced *)
From Coq Require Import Reals Arith Bool Lia Lra Psatz Setoid Morphisms.
From Verif Require Import Base Alg Inst Mat SpecMat LemMat LemOps RSum ModelOps ModelSVD ModelGR SpecExp SpecEig LemEig LemExp RRect LemGR LemGR2 LemGR3 LemGR4 LemGR5 LemGR6 LemGR7 LemGR8.
Open Scope outcome_scope.
Local Open Scope R_scope.

Lemma nz_mul a b : a <> 0 -> b <> 0 -> a * b <> 0. Proof. apply Rmult_integral_contrapositive_currified. Qed.
Lemma nz_div a b : a <> 0 -> b <> 0 -> a / b <> 0. Proof. intros H K. apply nz_mul; [exact H|apply Rinv_neq_0_compat; exact K]. Qed.
Lemma three_poly d0 d1 d2 e1 e2 p : let F1 := d0 * p + e1 * e1 in let N := F1 * (e1 * p - d0 * e1) + d1 * e1 * (d1 * p) in let z := p * p + e1 * e1 in let Z := F1 * F1 + d1 * e1 * (d1 * e1) in let sg := d0 * d0 - d0 * p in
  d0 * (N * e1 * (F1 * F1 * (e2 * e2) + d2 * d2 * Z - d0 * d0 * (d1 * d1) * z) + d0 * F1 * (N * N - d1 * d1 * (e1 * e1) * (e2 * e2) * z)) =
  e1 * e1 * Z * ((d0 * d0 - sg) * ((d1 * d1 + e1 * e1 - sg) * (d2 * d2 + e2 * e2 - sg) - d1 * e2 * (d1 * e2)) - d0 * e1 * (d0 * e1) * (d2 * d2 + e2 * e2 - sg)).
Proof. cbv zeta. ring. Qed.
(** the shift is an eigenvalue of the trailing 2 x 2 block of B^T B, so not one of B^T B *)
Lemma three_shift d0 d1 d2 e1 e2 f t p : d0 <> 0 -> d1 <> 0 -> e1 <> 0 -> e2 <> 0 -> t <> 0 -> f = ((d1 - d2) * (d1 + d2) + (e1 - e2) * (e1 + e2)) / (2 * e2 * d1) -> t * t = 2 * f * t + 1 ->
  p = ((d0 - d2) * (d0 + d2) + e2 * (d1 / t - e2)) / d0 -> let sg := d0 * d0 - d0 * p in
  (d0 * d0 - sg) * ((d1 * d1 + e1 * e1 - sg) * (d2 * d2 + e2 * e2 - sg) - d1 * e2 * (d1 * e2)) - d0 * e1 * (d0 * e1) * (d2 * d2 + e2 * e2 - sg) <> 0.
Proof.
  intros N0 N1 M1 M2 Nt Ef Et Ep sg.
  assert (Es : sg = d2 * d2 + e2 * e2 - d1 * e2 / t) by (unfold sg; rewrite Ep; field; split; assumption).
  assert (K : (d1 * d1 + e1 * e1 - sg) * (d2 * d2 + e2 * e2 - sg) - d1 * e2 * (d1 * e2) = 0).
  { rewrite Es. assert (X : 2 * (d1 * e2) * f = d1 * d1 + e1 * e1 - d2 * d2 - e2 * e2) by (rewrite Ef; field; split; assumption).
    transitivity (d1 * e2 / (t * t) * ((d1 * d1 + e1 * e1 - d2 * d2 - e2 * e2) * t + d1 * e2 - d1 * e2 * (t * t))); [field; exact Nt|]. rewrite <- X, Et. field. rewrite <- Et. apply nz_mul; exact Nt. }
  rewrite K. replace (d2 * d2 + e2 * e2 - sg) with (d1 * e2 / t) by (rewrite Es; ring). rewrite Rmult_0_r, Rminus_0_l. apply Ropp_neq_0_compat. apply nz_mul; [apply nz_mul; apply nz_mul; assumption|apply nz_div; [apply nz_mul; assumption|exact Nt]].
Qed.
Lemma three_next d0 d1 d2 e1 e2 p z c1 s1 f1 g1 h1 y1 z2 x f z3 c3 s3 f3 g3 h3 y3 :
  d0 <> 0 -> d1 <> 0 -> e1 <> 0 -> e2 <> 0 -> z <> 0 -> z * z = p * p + e1 * e1 -> c1 = p / z -> s1 = e1 / z ->
  f1 = d0 * c1 + e1 * s1 -> g1 = - d0 * s1 + e1 * c1 -> h1 = d1 * s1 -> y1 = d1 * c1 -> z2 <> 0 -> z2 * z2 = f1 * f1 + h1 * h1 ->
  x = - (h1 / z2) * g1 + f1 / z2 * y1 -> f = f1 / z2 * g1 + h1 / z2 * y1 ->
  z3 <> 0 -> c3 = f / z3 -> s3 = h1 / z2 * e2 / z3 -> f3 = x * c3 + f1 / z2 * e2 * s3 -> g3 = - x * s3 + f1 / z2 * e2 * c3 -> h3 = d2 * s3 -> y3 = d2 * c3 ->
  x = d0 * d1 / z2 /\
  d0 * (f3 * g3 + h3 * y3) * (z3 * z3) * (z2 * z2) * (z * z * z) = d1 * e2 * (e1 * e1) * ((d0 * d0 - (d0 * d0 - d0 * p)) * ((d1 * d1 + e1 * e1 - (d0 * d0 - d0 * p)) * (d2 * d2 + e2 * e2 - (d0 * d0 - d0 * p)) - d1 * e2 * (d1 * e2)) - d0 * e1 * (d0 * e1) * (d2 * d2 + e2 * e2 - (d0 * d0 - d0 * p))).
Proof.
  intros N0 N1 M1 M2 Nz Ez Ec1 Es1 Ef1 Eg1 Eh1 Ey1 Nz2 Ez2 Ex Ef Nz3 Ec3 Es3 Ef3 Eg3 Eh3 Ey3.
  assert (Ex' : x = d0 * d1 / z2). { rewrite Ex, Eh1, Eg1, Ef1, Ey1. transitivity (d0 * d1 * (c1 * c1 + s1 * s1) / z2); [field; exact Nz2|]. replace (c1 * c1 + s1 * s1) with 1; [field; exact Nz2|]. rewrite Ec1, Es1. transitivity ((p * p + e1 * e1) / (z * z)); [rewrite <- Ez; field; exact Nz|field; exact Nz]. }
  split; [exact Ex'|].
  set (F1 := d0 * p + e1 * e1). set (N := F1 * (e1 * p - d0 * e1) + d1 * e1 * (d1 * p)).
  assert (Uf1 : f1 = F1 / z) by (rewrite Ef1, Ec1, Es1; unfold F1; field; exact Nz).
  assert (Uh1 : h1 = d1 * e1 / z) by (rewrite Eh1, Es1; field; exact Nz).
  assert (Uf : f = N / (z2 * (z * z))). { rewrite Ef, Uf1, Uh1, Eg1, Ey1, Ec1, Es1. unfold N, F1. field. split; assumption. }
  assert (UZ : z2 * z2 * (z * z) = F1 * F1 + d1 * e1 * (d1 * e1)) by (rewrite Ez2, Uf1, Uh1; field; exact Nz).
  assert (S1 : (f3 * g3 + h3 * y3) * (z3 * z3) = f * (h1 / z2 * e2) * (f1 / z2 * e2 * (f1 / z2 * e2) + d2 * d2 - x * x) + x * (f1 / z2 * e2) * (f * f - h1 / z2 * e2 * (h1 / z2 * e2))).
  { rewrite Ef3, Eg3, Eh3, Ey3, Ec3, Es3. field. split; assumption. }
  transitivity (d0 * ((f3 * g3 + h3 * y3) * (z3 * z3)) * (z2 * z2) * (z * z * z)); [ring|]. rewrite S1, Ex', Uf, Uf1, Uh1.
  transitivity (d1 * e2 * (d0 * (N * e1 * (F1 * F1 * (e2 * e2) + d2 * d2 * (z2 * z2 * (z * z)) - d0 * d0 * (d1 * d1) * (z * z)) + d0 * F1 * (N * N - d1 * d1 * (e1 * e1) * (e2 * e2) * (z * z)))) / (z2 * z2 * (z * z))); [field; split; assumption|].
  pose proof (three_poly d0 d1 d2 e1 e2 p) as TP. cbv zeta in TP. fold F1 in TP. fold N in TP. rewrite <- Ez in TP. rewrite <- UZ in TP. rewrite TP. field. split; assumption.
Qed.
Section T.
Variable absorbed : R -> R -> bool.
Variables (wantU wantV : bool) (q : nat) (A G : rmat) (anorm : R).
Hypothesis rows_short : forall r, (r < 3)%nat -> G r r <= 1.
Hypothesis absorbed_0 : absorbed 0 anorm = true.
Hypothesis absorbed_exact : forall x, absorbed x anorm = true -> x = 0.
Hypothesis nq : (3 <= q)%nat.
Lemma zero_tol : forall x, absorbed x anorm = true -> Rabs x <= 0.
Proof. intros x H. rewrite (absorbed_exact x H), Rabs_R0. lra. Qed.
Lemma kept x : x <> 0 -> absorbed x anorm = false.
Proof. intros N. destruct (absorbed x anorm) eqn:E; [|reflexivity]. apply absorbed_exact in E. contradiction. Qed.
Local Notation state := (state wantU wantV 3 3 q A G 0).
Definition unreduced (d e : nat -> R) : Prop := d 0%nat <> 0 /\ d 1%nat <> 0 /\ d 2%nat <> 0 /\ e 1%nat <> 0 /\ e 2%nat <> 0.
Lemma subloop_three iter cnt d0 p Ug Vg d e : state 2 cnt d0 p Ug Vg d e -> unreduced d e ->
  wp (subloop absorbed wantU wantV anorm 2 iter p) (fun r => match snd r with Converged _ => False | Failed => True | Again => unreduced (vat (pD (fst r))) (vat (pE (fst r))) end).
Proof.
  intros (HU & HV & HD & HE & HF & He0 & Hd0) (D0 & D1 & D2 & E1 & E2). unfold subloop.
  cbn [split]. rewrite bind_assoc. eapply wp_vget; [exact HE|lia|]. rewrite (kept _ E2). rewrite bind_assoc. eapply wp_vget; [exact HD|lia|]. rewrite (kept _ D1).
  rewrite bind_assoc. eapply wp_vget; [exact HE|lia|]. rewrite (kept _ E1). rewrite bind_assoc. eapply wp_vget; [exact HD|lia|]. rewrite (kept _ D0). rewrite bind_assoc. eapply wp_vget; [exact HE|lia|]. rewrite He0, absorbed_0. cbn [bind].
  eapply wp_vget; [exact HD|lia|]. change (0 =? 2)%nat with false. cbv iota. destruct (Nat.eqb_spec iter 30) as [->|Ni]; [exact I|].
  eapply wp_vget; [exact HD|lia|]. unfold shift. change (2 - 1)%nat with 1%nat. rewrite bind_assoc. eapply wp_vget; [exact HD|lia|]. rewrite bind_assoc. eapply wp_vget; [exact HD|lia|]. rewrite bind_assoc. eapply wp_vget; [exact HE|lia|]. rewrite bind_assoc. eapply wp_vget; [exact HE|lia|]. rewrite bind_assoc.
  eapply wp_div; [apply nz_mul; [lra|exact D1]|]. cbv zeta.
  remember (((d 1%nat - d 2%nat) * (d 1%nat + d 2%nat) + (e 1%nat - e 2%nat) * (e 1%nat + e 2%nat)) / (2 * e 2%nat * d 1%nat)) as f0 eqn:Ef0.
  assert (P : 0 <= f0 * f0 + 1) by nra. pose proof (sqrt_sqrt _ P) as Sq. pose proof (sqrt_lt_R0 (f0 * f0 + 1) ltac:(nra)) as Sp. remember (sqrt (f0 * f0 + 1)) as g0 eqn:Eg0.
  remember (if R_ltb f0 0 then - g0 else g0) as sg eqn:Esg. assert (Hsg : sg * sg = f0 * f0 + 1 /\ f0 + sg <> 0). { rewrite Esg. destruct (R_ltb f0 0) eqn:Q; [apply R_ltb_spec in Q|apply R_ltb_false in Q]; split; nra. } destruct Hsg as [Hsg Nsg].
  rewrite bind_assoc. eapply wp_div; [exact Nsg|]. eapply wp_div; [exact D0|].
  remember (f0 + sg) as t eqn:Et. assert (Ht : t * t = 2 * f0 * t + 1) by (rewrite Et; nra).
  remember (((d 0%nat - d 2%nat) * (d 0%nat + d 2%nat) + e 2%nat * (d 1%nat / t - e 2%nat)) / d 0%nat) as p0 eqn:Ep0.
  pose proof (three_shift (d 0%nat) (d 1%nat) (d 2%nat) (e 1%nat) (e 2%nat) f0 t p0 D0 D1 E1 E2 Nsg Ef0 Ht Ep0) as TS. cbv zeta in TS.
  eapply (wp_seq _ (fun w => exists dd ee, vis (wD w) 3 dd /\ vis (wE w) q ee /\ wf w <> 0 /\ wx w <> 0 /\ dd 0%nat <> 0 /\ dd 1%nat <> 0 /\ ee 1%nat <> 0)).
  - unfold for_. cbn [Nat.sub for_up]. unfold sweep_step at 1. cbn [wU wV wD wE wf wx wc ws Nat.add].
    rewrite bind_assoc. eapply wp_vget; [exact HE|lia|]. rewrite bind_assoc. eapply wp_vget; [exact HD|lia|]. rewrite !Rmult_1_l.
    destruct (hyp_ok p0 (e 1%nat)) as (Z1 & Z2 & Z3). specialize (Z3 (or_intror E1)). remember (sqrt (p0 * p0 + e 1%nat * e 1%nat)) as z eqn:Ez. assert (Nz : z <> 0) by lra.
    rewrite bind_assoc. eapply wp_vset; [exact HE|lia|]. intros Ea HEa. rewrite bind_assoc. eapply wp_div; [exact Nz|]. rewrite bind_assoc. eapply wp_div; [exact Nz|]. rewrite bind_assoc. eapply wp_seq; [apply rotate_if_ok; [exact HV|lia|lia|lia]|]. intros Va HVa.
    remember (p0 / z) as c1 eqn:Ec1. remember (e 1%nat / z) as s1 eqn:Es1. assert (Ns1 : s1 <> 0) by (rewrite Es1; apply nz_div; assumption).
    remember (d 0%nat * c1 + e 1%nat * s1) as f1 eqn:Ef1. remember (- d 0%nat * s1 + e 1%nat * c1) as g1 eqn:Eg1. remember (d 1%nat * s1) as h1 eqn:Eh1. remember (d 1%nat * c1) as y1 eqn:Ey1.
    assert (Nh1 : h1 <> 0) by (rewrite Eh1; apply nz_mul; assumption).
    rewrite bind_assoc. eapply wp_vset; [exact HD|lia|]. intros Da HDa. destruct (hyp_ok f1 h1) as (Y1 & Y2 & Y3). specialize (Y3 (or_intror Nh1)). remember (sqrt (f1 * f1 + h1 * h1)) as z2 eqn:Ez2. assert (Nz2 : z2 <> 0) by lra.
    destruct (R_eqb z2 0) eqn:Q; [apply R_eqb_true in Q; contradiction|clear Q]. rewrite !bind_assoc. eapply wp_div; [exact Nz2|]. rewrite !bind_assoc. eapply wp_div; [exact Nz2|]. cbn [bind]. rewrite bind_assoc. eapply wp_seq; [apply rotate_if_ok; [exact HU|lia|lia|lia]|]. intros Ua HUa. cbn [bind].
    remember (- (h1 / z2) * g1 + f1 / z2 * y1) as x eqn:Ex. remember (f1 / z2 * g1 + h1 / z2 * y1) as f eqn:Ef.
    (* second iteration *)
    unfold sweep_step. cbn [wU wV wD wE wf wx wc ws Nat.add]. rewrite bind_assoc. eapply wp_vget; [exact HEa|lia|]. rewrite upd1_out by lia. rewrite bind_assoc. eapply wp_vget; [exact HDa|lia|]. rewrite upd1_out by lia.
    assert (Nh : h1 / z2 * e 2%nat <> 0) by (apply nz_mul; [apply nz_div; assumption|exact E2]).
    destruct (hyp_ok f (h1 / z2 * e 2%nat)) as (X1 & X2 & X3). specialize (X3 (or_intror Nh)). remember (sqrt (f * f + h1 / z2 * e 2%nat * (h1 / z2 * e 2%nat))) as z3 eqn:Ez3. assert (Nz3 : z3 <> 0) by lra.
    rewrite bind_assoc. eapply wp_vset; [exact HEa|lia|]. intros Eb HEb. rewrite bind_assoc. eapply wp_div; [exact Nz3|]. rewrite bind_assoc. eapply wp_div; [exact Nz3|]. rewrite bind_assoc. eapply wp_seq; [apply rotate_if_ok; [exact HVa|lia|lia|lia]|]. intros Vb HVb.
    remember (f / z3) as c3 eqn:Ec3. remember (h1 / z2 * e 2%nat / z3) as s3 eqn:Es3. assert (Ns3 : s3 <> 0) by (rewrite Es3; apply nz_div; assumption).
    remember (x * c3 + f1 / z2 * e 2%nat * s3) as f3 eqn:Ef3. remember (- x * s3 + f1 / z2 * e 2%nat * c3) as g3 eqn:Eg3. remember (d 2%nat * s3) as h3 eqn:Eh3. remember (d 2%nat * c3) as y3 eqn:Ey3.
    assert (Nh3 : h3 <> 0) by (rewrite Eh3; apply nz_mul; assumption).
    rewrite bind_assoc. eapply wp_vset; [exact HDa|lia|]. intros Db HDb. destruct (hyp_ok f3 h3) as (W1 & W2 & W3). specialize (W3 (or_intror Nh3)). remember (sqrt (f3 * f3 + h3 * h3)) as z4 eqn:Ez4. assert (Nz4 : z4 <> 0) by lra.
    destruct (R_eqb z4 0) eqn:Q; [apply R_eqb_true in Q; contradiction|clear Q]. rewrite !bind_assoc. eapply wp_div; [exact Nz4|]. rewrite !bind_assoc. eapply wp_div; [exact Nz4|]. cbn [bind]. rewrite bind_assoc. eapply wp_seq; [apply rotate_if_ok; [exact HUa|lia|lia|lia]|]. intros Ub HUb. cbn [bind wp wD wE wf wx].
    exists (upd1 (upd1 d 0 z2) 1 z4), (upd1 (upd1 e 0 z) 1 z3). split; [exact HDb|]. split; [exact HEb|].
    destruct (three_next (d 0%nat) (d 1%nat) (d 2%nat) (e 1%nat) (e 2%nat) p0 z c1 s1 f1 g1 h1 y1 z2 x f z3 c3 s3 f3 g3 h3 y3 D0 D1 E1 E2 Nz Z1 Ec1 Es1 Ef1 Eg1 Eh1 Ey1 Nz2 Y1 Ex Ef Nz3 Ec3 Es3 Ef3 Eg3 Eh3 Ey3) as [TX TN].
    split; [|split; [|rewrite upd1_in, upd1_out, upd1_in, upd1_in by lia; repeat split; assumption]].
    + intros C. assert (C0 : f3 * g3 + h3 * y3 = 0) by (transitivity ((f3 / z4 * g3 + h3 / z4 * y3) * z4); [field; exact Nz4|rewrite C; ring]). rewrite C0 in TN. rewrite Rmult_0_r, !Rmult_0_l in TN. symmetry in TN. revert TN. apply nz_mul; [apply nz_mul; [apply nz_mul; assumption|apply nz_mul; assumption]|exact TS].
    + assert (Nx : x <> 0) by (rewrite TX; apply nz_div; [apply nz_mul; assumption|exact Nz2]).
      replace (- (h3 / z4) * g3 + f3 / z4 * y3) with (x * d 2%nat * (c3 * c3 + s3 * s3) / z4) by (rewrite Eh3, Ef3, Eg3, Ey3; field; repeat split; assumption).
      replace (c3 * c3 + s3 * s3) with 1; [apply nz_div; [rewrite Rmult_1_r; apply nz_mul; assumption|exact Nz4]|]. rewrite Ec3, Es3. transitivity ((f * f + h1 / z2 * e 2%nat * (h1 / z2 * e 2%nat)) / (z3 * z3)); [rewrite <- X1; field; exact Nz3|field; repeat split; assumption].
  - intros w (dd & ee & KD & KE & N1 & N2 & N3 & N4 & N5). eapply wp_vset; [exact KE|lia|]. intros Ea KEa. eapply wp_vset; [exact KEa|lia|]. intros Eb (_ & KEb). eapply wp_vset; [exact KD|lia|]. intros Da (_ & KDa). cbn [wp fst snd pD pE]. unfold unreduced. rewrite !KDa, !KEb. unfold upd1. cbn [Nat.eqb]. repeat split; assumption.
Qed.
Lemma iterate_three d0 : forall fuel iter cnt p Ug Vg d e, (iter <= 30)%nat -> (31 <= fuel + iter)%nat -> state 2 cnt d0 p Ug Vg d e -> unreduced d e -> wp (iterate absorbed wantU wantV fuel anorm 2 iter p) (fun r => snd r = None).
Proof.
  induction fuel as [|fuel IH]; intros iter cnt p Ug Vg d e Hi Hf HS HU; [lia|]. cbn [iterate].
  eapply wp_seq; [apply wp_and; [apply (subloop_three iter cnt d0 p Ug Vg d e HS HU)|apply (subloop_ok absorbed wantU wantV 3 3 q A G 0 anorm rows_short ltac:(lra) absorbed_0 zero_tol nq 2 iter cnt d0 p Ug Vg d e ltac:(lia) HS)]|].
  intros [p1 t1] [HA (U1 & V1 & d1 & e1 & _ & _ & HT)]. cbn [fst snd] in *. destruct t1 as [z| |]; [contradiction|reflexivity|]. destruct HT as (Ni & HS1). rewrite Nat.add_1_r. apply (IH (S iter) (3 + cnt)%nat p1 U1 V1 d1 e1); [lia|lia|exact HS1|].
  destruct HS1 as (_ & _ & (_ & KD) & (_ & KE) & _). unfold unreduced in *. rewrite !KD, !KE in HA. exact HA.
Qed.
End T.
