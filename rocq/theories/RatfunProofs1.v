(** Proofs: finitely many sums of monomials, none of them zero everywhere, are all nonzero at some positive arguments. *)
From Coq Require Import ZArith QArith Qreals Reals String Ascii Lia Lra Bool List.
From Verif Require Import Base RationalModel RationalSpec RationalProofs RealModel RealSpec PolyModel PolySpec PolyProofs1 PolyProofs2 PolyProofs6 RingProofs1.
Import ListNotations.
Open Scope R_scope.

(** ** sums of c e^(b t) *)
Definition es (t : R) (l : list (R * R)) : R := fold_right (fun p a => fst p * exp (snd p * t) + a) 0 l.
Lemma es_cons t c b l : es t ((c, b) :: l) = c * exp (b * t) + es t l. Proof. reflexivity. Qed.
Lemma small_one c b e : b < 0 -> 0 < e -> exists T, forall t, T <= t -> Rabs (c * exp (b * t)) < e.
Proof.
  intros B Ee. set (K := Rabs c / e). assert (K0 : 0 <= K) by (unfold K; apply Rmult_le_pos; [apply Rabs_pos|left; now apply Rinv_0_lt_compat]).
  exists (K / - b). intros t Ht. assert (NB : 0 < - b) by lra. assert (X : K <= - b * t). { apply (Rmult_le_compat_l (- b)) in Ht; [|lra]. replace (- b * (K / - b)) with K in Ht by (field; lra). exact Ht. }
  rewrite Rabs_mult, (Rabs_right (exp _)) by (left; apply exp_pos). assert (Y : 1 + - b * t <= exp (- b * t)).
  { destruct (Req_dec (- b * t) 0) as [Z|Z]; [rewrite Z, exp_0; lra|left; apply exp_ineq1; exact Z]. }
  replace (b * t) with (- (- b * t)) by ring. rewrite exp_Ropp. set (u := exp (- b * t)) in *. assert (U : 0 < u) by (unfold u; apply exp_pos). apply (Rmult_lt_reg_r u); [exact U|]. rewrite Rmult_assoc, Rinv_l, Rmult_1_r by lra.
  assert (Rabs c = K * e) by (unfold K; field; lra). nra.
Qed.
Lemma small_sum : forall l, Forall (fun p => snd p < 0) l -> forall e, 0 < e -> exists T, forall t, T <= t -> Rabs (es t l) < e.
Proof.
  induction 1 as [|[c b] l B F IH]; intros e Ee; [exists 0; intros t _; cbn; rewrite Rabs_R0; exact Ee|]. cbn [snd] in B.
  destruct (small_one c b (e / 2) B) as (T1 & H1); [lra|]. destruct (IH (e / 2)) as (T2 & H2); [lra|]. exists (Rmax T1 T2). intros t Ht. rewrite es_cons. pose proof (Rmax_l T1 T2). pose proof (Rmax_r T1 T2).
  eapply Rle_lt_trans; [apply Rabs_triang|]. specialize (H1 t ltac:(lra)). specialize (H2 t ltac:(lra)). lra.
Qed.
Definition top (l : list (R * R)) (b : R) : Prop := (exists c, In (c, b) l) /\ Forall (fun p => snd p <= b) l.
Lemma top_exists p l : exists b, top (p :: l) b.
Proof.
  revert p. induction l as [|q l IH]; intros [c b].
  - exists b. split; [exists c; now left|]. constructor; [cbn; lra|constructor].
  - destruct (IH q) as (b' & (c' & I) & F). destruct (Rle_lt_dec b b') as [L|L].
    + exists b'. split; [exists c'; now right|]. constructor; [exact L|exact F].
    + exists b. split; [exists c; now left|]. constructor; [cbn; lra|]. eapply Forall_impl; [|exact F]. intros x X. cbn beta in *. lra.
Qed.
Definition rest (b : R) (l : list (R * R)) := filter (fun p => if Req_EM_T (snd p) b then false else true) l.
Definition cs (b : R) (l : list (R * R)) : R := fold_right (fun p a => (if Req_EM_T (snd p) b then fst p else 0) + a) 0 l.
Lemma es_split t b l : es t l = cs b l * exp (b * t) + es t (rest b l).
Proof.
  induction l as [|[c x] l IH]; [cbn; ring|]. rewrite es_cons, IH. unfold cs, rest. cbn [fold_right filter fst snd]. fold (cs b l). fold (rest b l). destruct (Req_EM_T x b) as [->|N]; [ring|]. rewrite es_cons. ring.
Qed.
Lemma rest_le b l : (length (rest b l) <= length l)%nat.
Proof. induction l as [|[c x] l IH]; [cbn; lia|]. unfold rest. cbn [filter snd]. fold (rest b l). destruct (Req_EM_T x b); cbn [length]; lia. Qed.
Lemma rest_lt b c l : In (c, b) l -> (length (rest b l) < length l)%nat.
Proof.
  induction l as [|[c' x] l IH]; intros H; [contradiction|]. destruct H as [Q|I].
  - injection Q as -> ->. unfold rest. cbn [filter snd]. fold (rest b l). destruct (Req_EM_T b b); [|contradiction]. pose proof (rest_le b l). cbn [length]. lia.
  - specialize (IH I). unfold rest. cbn [filter snd]. fold (rest b l). destruct (Req_EM_T x b); cbn [length]; lia.
Qed.
Definition shift (b : R) (l : list (R * R)) := map (fun p => (fst p, snd p - b)) l.
Lemma es_shift t b l : es t l = exp (b * t) * es t (shift b l).
Proof.
  induction l as [|[c x] l IH]; [cbn; ring|]. change (shift b ((c, x) :: l)) with ((c, x - b) :: shift b l). rewrite !es_cons, IH. replace (x * t) with (b * t + (x - b) * t) by ring. rewrite exp_plus. ring.
Qed.
Lemma eventually : forall n l, (length l <= n)%nat -> (forall t, es t l = 0) \/ exists T, forall t, T <= t -> es t l <> 0.
Proof.
  induction n as [|n IH]; intros [|p l] L; try (left; reflexivity); [cbn in L; lia|]. set (q := p :: l) in *. destruct (top_exists p l) as (b & (c & I) & F). fold q in I, F. pose proof (rest_lt b c q I) as RL.
  destruct (Req_dec (cs b q) 0) as [Z|Z].
  - destruct (IH (rest b q)) as [A|(T & A)]; [lia| |].
    + left. intros t. rewrite (es_split t b), Z, A. ring.
    + right. exists T. intros t Ht. rewrite (es_split t b), Z. specialize (A t Ht). intros X. apply A. lra.
  - right. assert (FN : Forall (fun p => snd p < 0) (shift b (rest b q))).
    { unfold shift. rewrite Forall_map. cbn [snd]. rewrite Forall_forall. intros x J. unfold rest in J. apply filter_In in J as [J K]. rewrite Forall_forall in F. specialize (F x J). cbn beta in F. destruct (Req_EM_T (snd x) b); [discriminate|lra]. }
    destruct (small_sum _ FN (Rabs (cs b q))) as (T & A); [now apply Rabs_pos_lt|]. exists T. intros t Ht X. rewrite (es_split t b), (es_shift t b (rest b q)) in X. specialize (A t Ht). pose proof (exp_pos (b * t)). assert (Y : cs b q = - es t (shift b (rest b q))) by nra. rewrite Y, Rabs_Ropp in A. lra.
Qed.

(** ** along an exponential path *)
Definition lsv (s : string -> R) (m : smap) : R := fold_right (fun p a => Q2R (qv (snd p)) * ln (s (fst p)) + a) 0 m.
Lemma sv_exp s m : pos s -> mono m -> sv s m = exp (lsv s m).
Proof.
  intros S [_ F]. induction F as [|[k v] m [Q _] F IH]; [cbn; now rewrite exp_0|]. rewrite sv_cons, IH. unfold lsv. cbn [fold_right fst snd] in *. fold (lsv s m). rewrite exp_plus. f_equal. rewrite pwr_pos by auto. reflexivity.
Qed.
Definition path (s1 s2 : string -> R) (t : R) : string -> R := fun k => exp (ln (s1 k) + (ln (s2 k) - ln (s1 k)) * t).
Lemma path_pos s1 s2 t : pos (path s1 s2 t). Proof. intros k. apply exp_pos. Qed.
Lemma lsv_path s1 s2 t m : lsv (path s1 s2 t) m = lsv s1 m + (lsv s2 m - lsv s1 m) * t.
Proof. induction m as [|[k v] m IH]; [cbn; ring|]. unfold lsv in *. cbn [fold_right fst snd]. rewrite IH. unfold path at 1. rewrite ln_exp. ring. Qed.
Definition along (s1 s2 : string -> R) (l : list (R * smap)) : list (R * R) := map (fun p => (fst p * exp (lsv s1 (snd p)), lsv s2 (snd p) - lsv s1 (snd p))) l.
Lemma lin_path s1 s2 t l : Forall (fun p => mono (snd p)) l -> lin (path s1 s2 t) l = es t (along s1 s2 l).
Proof.
  induction 1 as [|[c m] l M F IH]; [reflexivity|]. change (along s1 s2 ((c, m) :: l)) with ((c * exp (lsv s1 m), lsv s2 m - lsv s1 m) :: along s1 s2 l). rewrite lin_cons, es_cons, IH. cbn [snd] in M. rewrite sv_exp by (try apply path_pos; assumption). rewrite lsv_path, exp_plus. ring.
Qed.
Lemma lin_start s1 s2 l : pos s1 -> Forall (fun p => mono (snd p)) l -> lin s1 l = es 0 (along s1 s2 l).
Proof.
  intros S. induction 1 as [|[c m] l M F IH]; [reflexivity|]. change (along s1 s2 ((c, m) :: l)) with ((c * exp (lsv s1 m), lsv s2 m - lsv s1 m) :: along s1 s2 l). rewrite lin_cons, es_cons, IH. cbn [snd] in M. rewrite sv_exp by assumption. rewrite Rmult_0_r, exp_0. ring.
Qed.
Lemma lin_end s1 s2 l : pos s1 -> pos s2 -> Forall (fun p => mono (snd p)) l -> lin s2 l = es 1 (along s1 s2 l).
Proof.
  intros S S'. induction 1 as [|[c m] l M F IH]; [reflexivity|]. change (along s1 s2 ((c, m) :: l)) with ((c * exp (lsv s1 m), lsv s2 m - lsv s1 m) :: along s1 s2 l). rewrite lin_cons, es_cons, IH. cbn [snd] in M. rewrite sv_exp by assumption. rewrite Rmult_1_r. replace (lsv s2 m) with (lsv s1 m + (lsv s2 m - lsv s1 m)) at 1 by ring. rewrite exp_plus. ring.
Qed.
Definition nonzero_somewhere (l : list (R * smap)) : Prop := Forall (fun p => mono (snd p)) l /\ exists s, pos s /\ lin s l <> 0.
Theorem all_nonzero : forall L, Forall nonzero_somewhere L -> exists s, pos s /\ Forall (fun l => lin s l <> 0) L.
Proof.
  induction 1 as [|l L [M (s2 & P2 & N2)] F IH]; [exists (fun _ => 1); split; [intros k; lra|constructor]|]. destruct IH as (s1 & P1 & A).
  assert (X : exists T, forall t, T <= t -> Forall (fun l => lin (path s1 s2 t) l <> 0) L).
  { clear l M N2. induction F as [|l L [M _] F IH]; [exists 0; constructor|]. inversion A as [|? ? A1 A2]; subst. destruct (IH A2) as (T & HT). destruct (eventually (length (along s1 s2 l)) (along s1 s2 l)) as [Z|(T' & HT')]; [lia| |].
    - exfalso. apply A1. rewrite (lin_start s1 s2) by assumption. apply Z.
    - exists (Rmax T T'). intros t Ht. pose proof (Rmax_l T T'). pose proof (Rmax_r T T'). constructor; [rewrite lin_path by assumption; apply HT'; lra|apply HT; lra]. }
  destruct X as (T & HT). destruct (eventually (length (along s1 s2 l)) (along s1 s2 l)) as [Z|(T' & HT')]; [lia| |].
  - exfalso. apply N2. rewrite (lin_end s1 s2) by assumption. apply Z.
  - exists (path s1 s2 (Rmax T T')). split; [apply path_pos|]. pose proof (Rmax_l T T'). pose proof (Rmax_r T T'). constructor; [rewrite lin_path by assumption; apply HT'; lra|apply HT; lra].
Qed.
