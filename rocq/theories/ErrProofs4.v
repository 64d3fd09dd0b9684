(** factorize throws nothing; the concrete environments are calm. *)
From Coq Require Import ZArith String Ascii Lia Bool List.
From Verif Require Import Base AdapterModel FactorizeModel RationalModel RealModel RealSpec PolyModel ExprModel ParserModel CliModel ErrSpec ErrProofs1 ErrProofs2 ErrProofs3.
Import ListNotations.
Open Scope Z_scope.

Lemma o_rem X w a b : outcome X any (rem_w w a b).
Proof. unfold rem_w. destruct (b =? 0); [exact I|]. step. exact I. Qed.
#[export] Hint Resolve o_rem : calm.
Lemma o_mulmod X w m fuel : forall a b r, outcome X any (mulmod_loop w fuel a b m r).
Proof.
  induction fuel as [|f IH]; intros a b r; cbn [mulmod_loop]; (destruct (a =? 0); [exact I|]); [exact I|].
  eapply o_bind with (Q := any). { destruct (Z.odd a); [|exact I]. step. apply o_rem. } intros r' _. step. apply IH.
Qed.
Lemma o_modpow_loop X w m fuel : forall b e r, outcome X any (modpow_loop w fuel b e m r).
Proof.
  induction fuel as [|f IH]; intros b e r; cbn [modpow_loop]; (destruct (e <=? 0); [exact I|]); [exact I|].
  eapply o_bind with (Q := any). { destruct (Z.odd e); [|exact I]. step. apply o_rem. } intros r' _. do 2 step. apply IH.
Qed.
Lemma o_adapter_mulmod X w a b m : outcome X any (adapter_mulmod w a b m). Proof. apply o_mulmod. Qed.
Lemma o_modpow X w b e m : outcome X any (adapter_modpow w b e m). Proof. unfold adapter_modpow. step. apply o_modpow_loop. Qed.
#[export] Hint Resolve o_adapter_mulmod o_modpow : calm.
Lemma o_mr_inner X w n s : forall x, outcome X any (mr_inner w n s x).
Proof. induction s as [|s IH]; intros x; cbn [mr_inner]; [exact I|]. step. destruct (x0 =? n); [exact I|]. step. apply IH. Qed.
#[export] Hint Resolve o_mr_inner : calm.
Lemma o_mr_loop X w n d s ws : outcome X any (mr_loop w n d s ws).
Proof. induction ws as [|p ws IH]; cbn [mr_loop]; [exact I|]. step. destruct (x =? 1); [exact IH|]. step. destruct x0; exact I. Qed.
Lemma o_split2 X fuel : forall d s, outcome X any (split2 fuel d s).
Proof. induction fuel as [|f IH]; intros d s; cbn [split2]; [exact I|]. destruct (Z.odd d); [exact I|apply IH]. Qed.
#[export] Hint Resolve o_mr_loop o_split2 : calm.

Lemma o_miller_rabin X w n ws : outcome X any (miller_rabin w n ws).
Proof. unfold miller_rabin. eapply o_bind; [apply o_split2|]. intros [d s] _. apply o_mr_loop. Qed.
Lemma o_euler X w a n : outcome X any (euler_test w a n). Proof. unfold euler_test. step. exact I. Qed.
Lemma o_fermat X w a n : outcome X any (fermat_test w a n). Proof. unfold fermat_test. step. exact I. Qed.
Lemma o_andb X a b : outcome X any a -> outcome X any b -> outcome X any (andb_res a b).
Proof. intros A B. unfold andb_res. eapply o_bind; [exact A|]. intros [] _; [exact B|exact I]. Qed.
Lemma o_is_prime X w i128 n : outcome X any (is_prime w i128 n).
Proof.
  unfold is_prime. destruct (n <? 100000); [exact I|]. unfold is_prime_fast_path, fast_path_with.
  repeat (match goal with |- outcome _ _ (if ?b then _ else _) => destruct b end); try exact I; auto using o_miller_rabin, o_euler, o_fermat, o_andb.
Qed.
#[export] Hint Resolve o_is_prime : calm.
Lemma o_rho_f X w c n x : outcome X any (rho_f w c n x). Proof. unfold rho_f. repeat step. apply o_rem. Qed.
#[export] Hint Resolve o_rho_f : calm.
Lemma o_rho_inner X w c n i : forall t r p, outcome X any (rho_inner w c n i t r p).
Proof.
  induction i as [|i IH]; intros t r p; cbn [rho_inner]; [exact I|]. do 3 step. destruct (x =? x1); [exact I|]. do 3 step. destruct (x4 =? 0); [exact I|apply IH].
Qed.
Lemma o_rho_do X w c n fuel : forall t r p, outcome X any (rho_do w c n fuel t r p).
Proof.
  induction fuel as [|f IH]; intros t r p; [exact I|]. cbn [rho_do]. eapply o_bind; [apply o_rho_inner|]. intros [[t' r'] p'] _. step. destruct (x >? 1); [exact I|]. destruct (t' =? r'); [exact I|apply IH].
Qed.
#[export] Hint Resolve o_rho_do : calm.
Lemma o_rho_while X w n rnd fuel : forall k, outcome X any (rho_while w n rnd fuel k).
Proof.
  induction fuel as [|f IH]; intros k; cbn [rho_while]; [exact I|]. eapply o_bind with (Q := any). { unfold random_digit. destruct (n - 2 <? 1); exact I. }
  intros c _. step. destruct x; [exact I|apply IH].
Qed.
Lemma o_pollard X w i128 rnd fuel n k : outcome X any (pollard_rho w i128 rnd fuel n k).
Proof. unfold pollard_rho. destruct (n =? 4); [exact I|]. step. destruct x; [exact I|apply o_rho_while]. Qed.
#[export] Hint Resolve o_pollard : calm.
Lemma o_factorize X w i128 rnd fuel : forall n ret k, outcome X any (factorize w i128 rnd fuel n ret k).
Proof.
  induction fuel as [|f IH]; intros n ret k; cbn [factorize]; [exact I|]. destruct (n =? 1); [exact I|]. eapply o_bind; [apply o_pollard|]. intros [fac k'] _. do 2 step.
  eapply o_bind with (Q := any). { destruct x0; [exact I|apply IH]. } intros [ret' k''] _. step. destruct x1; [exact I|apply IH].
Qed.
Lemma std_fac_calm w i128 rnd fuel junk : fac_calm (std_env w i128 rnd fuel junk).
Proof.
  intros n. apply o_none with (Q := any). cbn [efac std_env]. destruct (n <? 9006401); [|exact I]. eapply o_bind; [apply o_factorize|]. intros [l k] _. exact I.
Qed.
Lemma o_insert_term X w t l : sane_term t -> sane_poly l -> outcome X any (insert_term w t l).
Proof.
  intros T H. induction H as [|u l U H IH]; cbn [insert_term]; [exact I|]. eapply o_bind; [apply o_term_before; assumption|]. intros [] _; [|exact I]. eapply o_bind; [exact IH|]. intros; exact I.
Qed.
Lemma insert_in w t l : forall l', insert_term w t l = Ok l' -> forall u, In u l' -> u = t \/ In u l.
Proof.
  induction l as [|v l IH]; intros l' E u U; cbn [insert_term] in E.
  - injection E as <-. destruct U as [->|[]]; auto.
  - destruct (term_before w v t) as [[]| | |]; try discriminate; cbn [bind] in E.
    + destruct (insert_term w t l) as [r| | |] eqn:R; try discriminate. injection E as <-. destruct U as [->|U]; [right; left; reflexivity|]. destruct (IH r eq_refl u U); [auto|right; right; assumption].
    + injection E as <-. destruct U as [->|U]; auto.
Qed.
Lemma isort_in w l : forall l', isort w l = Ok l' -> forall u, In u l' -> In u l.
Proof.
  induction l as [|t l IH]; intros l' E u U; cbn [isort] in E. { injection E as <-. exact U. }
  destruct (isort w l) as [s| | |] eqn:S; try discriminate. cbn [bind] in E. destruct (insert_in _ _ _ _ E u U) as [->|V]; [left; reflexivity|right; exact (IH s eq_refl u V)].
Qed.
Lemma o_isort X w l : sane_poly l -> outcome X sane_poly (isort w l).
Proof.
  intros H. induction H as [|t l T H IH]; cbn [isort]; [constructor|]. eapply o_bind; [exact IH|]. intros s S. eapply o_of_ok; [apply o_insert_term; assumption|].
  intros l' E. apply Forall_forall. intros u U. destruct (insert_in _ _ _ _ E u U) as [->|V]; [exact T|]. eapply Forall_forall; [exact S|exact V].
Qed.
Lemma std_calm w i128 rnd fuel junk : calm (PEnv (std_env w i128 rnd fuel junk) (isort w)).
Proof.
  split; [exact (std_fac_calm w i128 rnd fuel junk)|]. split; cbn [psort].
  - intros l S. eapply o_none, o_isort, S.
  - intros l l' _ E. exact (isort_in w l l' E).
Qed.
