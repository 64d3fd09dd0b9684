(** Proofs: the readers of text with positions do what the readers without do. *)
From Coq Require Import ZArith NArith String Ascii Lia Bool List.
From Verif Require Import Base AdapterModel HugeModel RationalModel RationalProofs RealModel PolyModel ExprModel ParserModel CliModel ScanModel ScanSpec.
Import ListNotations.
Open Scope Z_scope.

Definition keeps {A B} (s : text) (R : A -> B -> Prop) (x : scan A) (m : res B) : Prop :=
  match x with
  | Outside => False
  | BadChar => Exists high s
  | Scan (Ok a) => exists b, m = Ok b /\ R a b
  | Scan (Throw e) => m = Throw e
  | Scan (Ub e) => m = Ub e
  | Scan Fuel => m = Fuel
  end.
Lemma keeps_bind {A B A' B'} s (R : A -> B -> Prop) (R' : A' -> B' -> Prop) x m f g :
  keeps s R x m -> (forall a b, R a b -> keeps s R' (f a) (g b)) -> keeps s R' (sbind x f) (bind m g).
Proof. intros H F. destruct x as [| |[a|e|e|]]; cbn [keeps sbind] in *; try contradiction; try assumption; [|subst; reflexivity|subst; reflexivity|subst; reflexivity]. destruct H as (b & -> & H). cbn [bind]. now apply F. Qed.
Lemma keeps_res {A} s (r : res A) : keeps s eq (Scan r) r.
Proof. destruct r as [a| | |]; cbn [keeps]; try reflexivity. exists a. auto. Qed.
Lemma keeps_ret {A B} s (R : A -> B -> Prop) a b : R a b -> keeps s R (ret a) (Ok b). Proof. intros H. exists b. auto. Qed.
Lemma keeps_let {A A' B'} s (R' : A' -> B' -> Prop) (x : scan A) a f m : keeps s eq x (Ok a) -> keeps s R' (f a) m -> keeps s R' (sbind x f) m.
Proof. intros H F. destruct x as [| |[y|e|e|]]; cbn [keeps sbind] in *; try contradiction; try assumption; try discriminate. destruct H as (b & E & <-). injection E as <-. exact F. Qed.
Lemma sbind_ret {A B} (a : A) (f : A -> scan B) : sbind (ret a) f = f a. Proof. reflexivity. Qed.
Lemma bind_Ok {A B} (a : A) (f : A -> res B) : bind (Ok a) f = f a. Proof. reflexivity. Qed.
Lemma keeps_val {A B A' B'} s (R : A -> B -> Prop) (R' : A' -> B' -> Prop) x b f m : keeps s R x (Ok b) -> (forall a, R a b -> keeps s R' (f a) m) -> keeps s R' (sbind x f) m.
Proof. intros H F. destruct x as [| |[y|e|e|]]; cbn [keeps sbind] in *; try contradiction; try assumption; try discriminate. destruct H as (c & E & H). injection E as <-. now apply F. Qed.
Lemma read_in s p : (p < length s)%nat -> exists c r, skipn p s = c :: r /\ skipn (S p) s = r /\ read s p = ret c /\ In c s.
Proof.
  intros H. unfold read. rewrite (proj2 (Nat.ltb_lt _ _) H). revert s H. induction p as [|p IH]; intros [|c s] H; cbn [length] in H; try lia.
  - exists c, s. cbn. auto.
  - destruct (IH s) as (d & r & A & B & C & D); [lia|]. exists d, r. cbn [nth]. split; [exact A|]. split; [exact B|]. split; [exact C|now right].
Qed.
Lemma read_end s p : p = length s -> read s p = ret "000"%char.
Proof. intros ->. unfold read. now rewrite Nat.ltb_irrefl, Nat.eqb_refl. Qed.
Lemma ctype_ok s f c : In c s \/ c = "000"%char -> keeps s eq (ctype f c) (Ok (f c)).
Proof.
  intros H. unfold ctype. destruct (N.ltb_spec (N_of_ascii c) 128); [now apply keeps_ret|]. cbn [keeps]. destruct H as [H | ->]; [|vm_compute in H0; congruence]. apply Exists_exists. exists c. split; [exact H|exact H0].
Qed.
Lemma skipn_end {A} (s : list A) p : (length s <= p)%nat -> skipn p s = []. Proof. apply skipn_all2. Qed.
Definition at_pos {A} (raw : text) (x : A * nat) (y : A * text) : Prop := fst x = fst y /\ skipn (snd x) raw = snd y.

Lemma number_loop_ok raw d : forall fuel temp p c r, (length raw - p < fuel + 1)%nat -> (p < length raw)%nat -> skipn p raw = c :: r ->
  keeps raw (at_pos raw) (number_loop fuel raw (is_dot d) temp p) (Ok (let (a, b) := span (number_char d) r in (temp ++ c :: a, b))).
Proof.
  induction fuel as [|f IH]; intros temp p c r F L S; [lia|]. destruct (read_in raw p L) as (c' & r' & S1 & S2 & RD & _). rewrite S in S1. injection S1 as <- <-. cbn [number_loop]. rewrite RD. rewrite ?sbind_ret.
  destruct (Nat.ltb_spec (Datatypes.S p) (length raw)) as [L2|L2].
  - destruct (read_in raw (Datatypes.S p) L2) as (c2 & r2 & T1 & T2 & RD2 & I2). rewrite S2 in T1. revert S2; subst r; intros S2. rewrite RD2. rewrite ?sbind_ret. apply (keeps_let raw _ _ (is_digit c2)); [apply ctype_ok; now left|].
    cbn [span]. assert (X : keeps raw (at_pos raw) (number_loop f raw (is_dot d) (temp ++ [c]) (Datatypes.S p)) (Ok (let (a, b) := let (a, b) := span (number_char d) r2 in (c2 :: a, b) in (temp ++ c :: a, b)))).
    { pose proof (IH (temp ++ [c]) (Datatypes.S p) c2 r2 ltac:(lia) L2 S2) as H. destruct (span (number_char d) r2) as [a b0]. rewrite <- app_assoc in H. exact H. }
    destruct (number_char d c2) eqn:NC; unfold number_char in NC; destruct (is_digit c2); cbn [orb] in NC; try discriminate NC; try exact X; destruct (is_dot d); cbn [negb andb] in NC; try discriminate NC; rewrite ?sbind_ret; try rewrite NC; try exact X; apply keeps_ret; (split; [reflexivity|exact S2]).
  - assert (r = []) as -> by (rewrite <- S2; now apply skipn_end). cbn [span]. apply keeps_ret. split; [reflexivity|]. exact S2.
Qed.
Lemma parse_a_number_ok P dec raw p c r : (p < length raw)%nat -> skipn p raw = c :: r ->
  keeps raw (at_pos raw) (parse_a_number P dec raw p) (let (n, s1) := scan_number (c :: r) in q <- rat_of_string (ew (pe P)) dec n ;; Ok (q, s1)).
Proof.
  intros L S. destruct (read_in raw p L) as (c' & r' & S1 & _ & RD & _). rewrite S in S1. injection S1 as <- <-. unfold parse_a_number. rewrite RD. rewrite ?sbind_ret.
  pose proof (number_loop_ok raw c (length raw) [] p c r ltac:(lia) L S) as H. cbn [scan_number]. destruct (span (number_char c) r) as [a b]. cbn [app] in H.
  eapply keeps_val; [exact H|]. intros [t q] [H1 H2]. cbn [fst snd] in *. subst t.
  eapply keeps_bind; [apply keeps_res|]. intros x y <-. apply keeps_ret. split; [reflexivity|exact H2].
Qed.
Lemma skip_spaces_ok raw : forall fuel p, (length raw - p < fuel)%nat ->
  keeps raw (fun q s => skipn q raw = s) (skip_spaces fuel raw p) (Ok (drop_spaces (skipn p raw))).
Proof.
  induction fuel as [|f IH]; intros p F; [lia|]. cbn [skip_spaces]. destruct (Nat.ltb_spec p (length raw)) as [L|L].
  - destruct (read_in raw p L) as (c & r & S1 & S2 & RD & I). rewrite RD, S1. rewrite ?sbind_ret. apply (keeps_let raw _ _ (is_space c)); [apply ctype_ok; now left|]. cbn [drop_spaces]. destruct (is_space c); [rewrite <- S2; apply IH; lia|]. apply keeps_ret. exact S1.
  - rewrite skipn_end by lia. apply keeps_ret. now apply skipn_end.
Qed.
Lemma braced_ok raw : forall fuel sym p, (length raw - p < fuel)%nat ->
  keeps raw (at_pos raw) (braced fuel raw sym p) (Ok (let (a, b) := span (fun d => negb (Ascii.eqb d "}")) (skipn p raw) in (sym ++ a, b))).
Proof.
  induction fuel as [|f IH]; intros sym p F; [lia|]. cbn [braced]. destruct (Nat.ltb_spec p (length raw)) as [L|L].
  - destruct (read_in raw p L) as (c & r & S1 & S2 & RD & I). rewrite RD, S1. rewrite ?sbind_ret; cbn [span]. destruct (Ascii.eqb c "}"); cbn [negb].
    + apply keeps_ret. split; cbn [fst snd]; [now rewrite app_nil_r|exact S1].
    + pose proof (IH (sym ++ [c]) (S p) ltac:(lia)) as H. rewrite S2 in H. destruct (span (fun d => negb (Ascii.eqb d "}")) r) as [a b]. rewrite <- app_assoc in H. exact H.
  - rewrite skipn_end by lia. cbn [span]. apply keeps_ret. split; cbn [fst snd]; [now rewrite app_nil_r|now apply skipn_end].
Qed.
Lemma tl_skipn {A} (s : list A) p r : skipn p s = r -> skipn (S p) s = tl r.
Proof. intros <-. revert s. induction p as [|p IH]; intros [|x s]; cbn [skipn tl]; try reflexivity. apply IH. Qed.
Lemma token_at_ok P dec raw p : keeps raw (at_pos raw) (token_at P dec raw p) (get_token P dec (skipn p raw)).
Proof.
  unfold token_at, get_token. cbv zeta. pose proof (skip_spaces_ok raw (S (length raw)) p ltac:(lia)) as H.
  eapply keeps_val; [exact H|]. clear H. intros q H. rewrite <- H. clear H p. rename q into p.
  destruct (Nat.leb_spec (length raw) p) as [L|L].
  { rewrite (skipn_end raw p L). apply keeps_ret. split; [reflexivity|]. now apply skipn_end. }
  destruct (read_in raw p L) as (c & r & S1 & S2 & RD & I). rewrite RD, S1. rewrite ?sbind_ret. destruct (Ascii.eqb c "_").
  { assert (RN : read raw (S p) = ret (peek r)).
    { destruct (Nat.ltb_spec (S p) (length raw)) as [L2|L2]; [destruct (read_in raw (S p) L2) as (c2 & r2 & T1 & _ & RD2 & _); rewrite S2 in T1; revert S2; subst r; intros S2; exact RD2|]. rewrite read_end by lia. assert (r = []) as -> by (rewrite <- S2; now apply skipn_end). reflexivity. }
    assert (IN : In (peek r) raw \/ peek r = "000"%char).
    { destruct (Nat.ltb_spec (S p) (length raw)) as [L2|L2]; [destruct (read_in raw (S p) L2) as (c2 & r2 & T1 & _ & _ & I2); rewrite S2 in T1; revert S2; subst r; intros S2; now left|]. assert (r = []) as -> by (rewrite <- S2; now apply skipn_end). now right. }
    rewrite RN. rewrite ?sbind_ret. eapply (keeps_bind raw (at_pos raw)).
    - destruct (Ascii.eqb (peek r) "/"); [eapply keeps_bind; [apply keeps_res|]; intros x y <-; apply keeps_ret; split; [reflexivity|exact S2]|].
      apply (keeps_let raw _ _ (is_digit (peek r))); [now apply ctype_ok|]. destruct (is_digit (peek r) || is_dot (peek r))%bool eqn:D; [|exact eq_refl].
      destruct r as [|c2 r2]; [vm_compute in D; discriminate|]. assert (L2 : (S p < length raw)%nat) by (destruct (Nat.ltb_spec (S p) (length raw)); [assumption|]; rewrite skipn_end in S2 by lia; discriminate).
      apply parse_a_number_ok; assumption.
    - intros [x q] [y s] [E1 E2]. cbn [fst snd] in *. subst y. eapply keeps_bind; [apply keeps_res|]. intros u v <-. apply keeps_ret. split; [reflexivity|]. cbn [snd]. now apply tl_skipn. }
  apply (keeps_let raw _ _ (is_digit c)); [apply ctype_ok; now left|]. destruct (is_digit c || is_dot c)%bool.
  { pose proof (parse_a_number_ok P dec raw p c r L S1) as N. destruct (scan_number (c :: r)) as [n s1]. destruct (rat_of_string (ew (pe P)) dec n) as [v|m|m|]; cbn [bind] in N.
    - rewrite bind_Ok. eapply keeps_val; [exact N|]. intros [x q] [H1 H2]. cbn [fst snd] in *. subst x. eapply keeps_bind; [apply keeps_res|]. intros u v' <-. apply keeps_ret. split; [reflexivity|exact H2].
    - cbn [bind]. destruct (parse_a_number P dec raw p) as [| |[[x q]|e|e|]]; cbn [keeps sbind] in *; try exact N; try discriminate N; try (injection N as <-; reflexivity); try reflexivity. destruct N as (y & E & _). discriminate.
    - cbn [bind]. destruct (parse_a_number P dec raw p) as [| |[[x q]|e|e|]]; cbn [keeps sbind] in *; try exact N; try discriminate N; try (injection N as <-; reflexivity); try reflexivity. destruct N as (y & E & _). discriminate.
    - cbn [bind]. destruct (parse_a_number P dec raw p) as [| |[[x q]|e|e|]]; cbn [keeps sbind] in *; try exact N; try discriminate N; try (injection N as <-; reflexivity); try reflexivity. destruct N as (y & E & _). discriminate. }
  destruct (is_opchar c).
  { destruct (Ascii.eqb c "*"); cbn [andb]; [|apply keeps_ret; split; [reflexivity|exact S2]]. rewrite Nat.add_1_r. destruct (Nat.ltb_spec (S p) (length raw)) as [L2|L2].
    - destruct (read_in raw (S p) L2) as (c2 & r2 & T1 & T2 & RD2 & _). rewrite S2 in T1. revert S2; subst r; intros S2. rewrite RD2. rewrite ?sbind_ret; cbn [peek]. destruct (Ascii.eqb c2 "*"); apply keeps_ret; (split; [reflexivity|]); [cbn [snd tl]; rewrite <- T2; f_equal; lia|exact S2].
    - assert (r = []) as -> by (rewrite <- S2; now apply skipn_end). cbn [peek]. change (Ascii.eqb "000" "*") with false. apply keeps_ret. split; [reflexivity|exact S2]. }
  destruct (Ascii.eqb c "("); [apply keeps_ret; split; [reflexivity|exact S2]|]. destruct (Ascii.eqb c ")"); [apply keeps_ret; split; [reflexivity|exact S2]|].
  apply (keeps_let raw _ _ (is_alpha c)); [apply ctype_ok; now left|]. destruct (is_alpha c || Ascii.eqb c "{")%bool; [|exact eq_refl].
  destruct (Ascii.eqb c "{").
  - pose proof (braced_ok raw (S (length raw)) [] (S p) ltac:(lia)) as N. rewrite S2 in N. destruct (span (fun d => negb (Ascii.eqb d "}")) r) as [k s1]. cbn [app] in N.
    eapply keeps_val; [exact N|]. intros [x q] [H1 H2]. cbn [fst snd] in *. subst x.
    eapply keeps_bind; [apply keeps_res|]. intros u v <-. apply keeps_ret. split; [reflexivity|]. cbn [snd]. now apply tl_skipn.
  - rewrite ?sbind_ret. eapply keeps_bind; [apply keeps_res|]. intros u v <-. apply keeps_ret. split; [reflexivity|exact S2].
Qed.
Lemma tokens_from_ok P dec raw : forall fuel acc p, keeps raw eq (tokens_from P dec fuel raw acc p) (token_loop P dec fuel acc (skipn p raw)).
Proof.
  induction fuel as [|f IH]; intros acc p; cbn [tokens_from token_loop].
  - destruct acc as [|[] ?]; try apply (keeps_res raw Fuel). now apply keeps_ret.
  - assert (G : keeps raw eq ('(t, pos) <~ token_at P dec raw p ;; acc <~ Scan (push_token P acc t) ;; tokens_from P dec f raw acc pos) ('(t, s') <- get_token P dec (skipn p raw) ;; acc' <- push_token P acc t ;; token_loop P dec f acc' s')).
    { eapply keeps_bind; [apply token_at_ok|]. intros [t q] [t' s'] [E1 E2]. cbn [fst snd] in *. subst t' s'. eapply keeps_bind; [apply keeps_res|]. intros a b <-. apply IH. }
    destruct acc as [|[] ?]; try exact G. now apply keeps_ret.
Qed.
Lemma keeps_reads {A} s (x : scan A) r : keeps s eq x r -> reads_as s x r.
Proof. destruct x as [| |[a|e|e|]]; cbn [keeps]; intros H; try contradiction; [now right|left; destruct H as (b & -> & <-); reflexivity|left; now subst|left; now subst|left; now subst]. Qed.
Lemma tokens_ok P dec raw : reads_as raw (tokens_at P dec raw) (get_all_tokens P dec raw).
Proof. apply keeps_reads. unfold tokens_at, get_all_tokens. eapply keeps_bind; [apply (tokens_from_ok P dec raw (S (length raw)) [TBegin] 0)|]. intros a b <-. now apply keeps_ret. Qed.
