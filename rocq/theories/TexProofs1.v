(** Reading TeX: the pieces a text can be put together from. *)
From Coq Require Import ZArith QArith Qreals Reals String Ascii Lia Lra Bool List.
From Verif Require Import Base HugeSpec AdapterModel AdapterProofs RationalModel RationalSpec RealModel RealSpec PolyModel PolySpec ExprModel ExprSpec ParserModel TextSpec PrintSpec TexSpec.
Import ListNotations.
Open Scope Z_scope.

(** ** tokens *)
Definition nodigit (t : text) : Prop := match t with [] => True | c :: _ => digit c = false end.
Definition Lx (t : text) (ts : list token) : Prop := forall rest, nodigit rest -> tokens Between (t ++ rest) = ts ++ tokens Between rest.
Definition Lc (t : text) (ts : list token) : Prop := forall rest, tokens Between (t ++ rest) = ts ++ tokens Between rest.
Definition opens (t : text) : Prop := match t with [] => False | c :: _ => digit c = false end.
Lemma opens_app b rest : opens b -> nodigit (b ++ rest). Proof. destruct b; [intros []|]. intros H. exact H. Qed.
Lemma lc_lx t ts : Lc t ts -> Lx t ts. Proof. intros H rest _. apply H. Qed.
Lemma lx_nil : Lx [] []. Proof. intros rest _. reflexivity. Qed.
Lemma lc_app a b ta tb : Lc a ta -> Lc b tb -> Lc (a ++ b) (ta ++ tb).
Proof. intros A B rest. rewrite <- !app_assoc, A, B. now rewrite app_assoc. Qed.
Lemma lcx_app a b ta tb : Lc a ta -> Lx b tb -> Lx (a ++ b) (ta ++ tb).
Proof. intros A B rest N. rewrite <- !app_assoc, A, B by assumption. now rewrite app_assoc. Qed.
Lemma lxc_app a b ta tb : Lx a ta -> Lc b tb -> opens b -> Lc (a ++ b) (ta ++ tb).
Proof. intros A B O rest. rewrite <- !app_assoc, A by now apply opens_app. now rewrite B, app_assoc. Qed.
Lemma lx_app a b ta tb : Lx a ta -> Lx b tb -> opens b -> Lx (a ++ b) (ta ++ tb).
Proof. intros A B O rest N. rewrite <- !app_assoc, A by now apply opens_app. now rewrite B, app_assoc. Qed.
Lemma lc_char c : digit c = false -> letter c = false -> c <> "\"%char -> c <> " "%char -> Lc [c] [KChar c].
Proof. intros D L B S rest. cbn [app tokens continue_with finish]. unfold begin_with. rewrite D, L. destruct (Ascii.eqb_spec c "\"); [contradiction|]. destruct (Ascii.eqb_spec c " "); [contradiction|]. reflexivity. Qed.
Lemma lc_letter c : letter c = true -> Lc [c] [KSym (String c "")].
Proof.
  intros L rest. cbn [app tokens continue_with finish]. unfold begin_with. rewrite L. assert (digit c = false) as ->; [|reflexivity]. unfold letter, digit in *. rewrite orb_true_iff, !andb_true_iff, !Z.leb_le in L. rewrite andb_false_iff, !Z.leb_gt. lia.
Qed.
(** control words *)
Definition noletter (t : text) : Prop := match t with [] => True | c :: _ => letter c = false end.
Lemma word_end k rest : noletter rest -> tokens (Word k) rest = control k :: tokens Between rest.
Proof. intros N. destruct rest as [|c rest]; [reflexivity|]. cbn in N. cbn [tokens continue_with finish]. rewrite N. reflexivity. Qed.
Lemma word_scan k' : forall k rest, Forall (fun c => letter c = true) (list_ascii_of_string k') -> tokens (Word k) (txt k' ++ rest) = tokens (Word (k ++ k')) rest.
Proof.
  assert (A : forall a, (a ++ "")%string = a) by (induction a as [|x a IH]; [reflexivity|]; cbn; now rewrite IH). assert (B : forall a b c, ((a ++ b) ++ c)%string = (a ++ (b ++ c))%string) by (induction a as [|x a IH]; intros; [reflexivity|]; cbn; now rewrite IH).
  induction k' as [|c k' IH]; intros k rest F; [now rewrite A|]. cbn [list_ascii_of_string] in F. inversion F as [|? ? L F']; subst. unfold txt. cbn [list_ascii_of_string app tokens continue_with]. rewrite L. fold (txt k'). rewrite IH by assumption. now rewrite B.
Qed.
Lemma lc_word k c : Forall (fun c => letter c = true) (list_ascii_of_string k) -> letter c = false -> c <> " "%char -> forall t ts, Lc (c :: t) ts -> Lc (txt "\" ++ txt k ++ c :: t) (control k :: ts).
Proof.
  intros F N S t ts L rest. cbn [txt list_ascii_of_string app tokens continue_with finish begin_with]. change (begin_with "\") with (@nil token, Word ""). cbn [fst snd app]. rewrite <- app_assoc. change (list_ascii_of_string k) with (txt k). rewrite word_scan by exact F. cbn [String.append]. cbn [app]. rewrite word_end by exact N. change (c :: t ++ rest) with ((c :: t) ++ rest). now rewrite (L rest).
Qed.
Lemma lc_word_space k : Forall (fun c => letter c = true) (list_ascii_of_string k) -> Lc (txt "\" ++ txt k ++ txt " ") [control k].
Proof.
  intros F rest. cbn [txt list_ascii_of_string app tokens continue_with finish begin_with]. change (begin_with "\") with (@nil token, Word ""). cbn [fst snd app]. rewrite <- app_assoc. change (list_ascii_of_string k) with (txt k). rewrite word_scan by exact F. cbn [String.append app]. rewrite word_end by reflexivity. reflexivity.
Qed.
(** numbers *)
Lemma digit_dec c : is_dec_digit c -> digit c = true.
Proof. unfold is_dec_digit, digit. intros H. rewrite andb_true_iff, !Z.leb_le. lia. Qed.
Lemma number_scan ds : Forall is_dec_digit ds -> forall n rest, nodigit rest -> tokens (Number n) (ds ++ rest) = KNum (dec_value_acc n ds) :: tokens Between rest.
Proof.
  induction 1 as [|c ds D F IH]; intros n rest N.
  - cbn [app dec_value_acc]. destruct rest as [|c rest]; [reflexivity|]. cbn in N. cbn [tokens continue_with finish]. rewrite N. reflexivity.
  - cbn [app tokens continue_with dec_value_acc]. rewrite (digit_dec c D). now apply IH.
Qed.
Lemma lx_numeral n : 0 <= n -> Lx (numeral n) [KNum n].
Proof.
  intros H rest N. destruct (numeral_spec n H) as [(NE & F & _) V]. destruct (numeral n) as [|c ds]; [contradiction|]. inversion F as [|? ? D F']; subst. cbn [app tokens continue_with finish]. unfold begin_with. rewrite (digit_dec c D). cbn [fst snd app].
  rewrite number_scan by assumption. unfold dec_value. cbn [dec_value_acc]. now rewrite Z.add_0_l.
Qed.

(** ** the grammar *)
Definition evt (f : nat -> option (formula * list token)) (r : formula * list token) : Prop := exists n, forall m, (n <= m)%nat -> f m = Some r.
Lemma evt_step f r : (exists n, forall m, (n <= m)%nat -> f (S m) = Some r) -> evt f r.
Proof. intros (n & H). exists (S n). intros m L. destruct m as [|m]; [lia|]. apply H. lia. Qed.
Lemma u_sum n l : r_sum (S n) l = if is_char "-" l then match r_product n (tl l) with Some (a, r) => r_terms n (FNeg a) r | None => None end else match r_product n l with Some (a, r) => r_terms n a r | None => None end. Proof. reflexivity. Qed.
Lemma u_terms n a l : r_terms (S n) a l = if is_char "+" l then match r_product n (tl l) with Some (b, r) => r_terms n (FAdd a b) r | None => None end
    else if is_char "-" l then match r_product n (tl l) with Some (b, r) => r_terms n (FSub a b) r | None => None end else Some (a, l). Proof. reflexivity. Qed.
Lemma u_product n l : r_product (S n) l = match r_factor n l with Some (a, r) => r_factors n a r | None => None end. Proof. reflexivity. Qed.
Lemma u_factors n a l : r_factors (S n) a l = match l with
    | KTimes :: r => match r_factor n r with Some (b, r') => r_factors n (FMul a b) r' | None => None end
    | _ => if begins_factor l then match r_factor n l with Some (b, r') => r_factors n (FMul a b) r' | None => None end else Some (a, l)
    end. Proof. reflexivity. Qed.
Lemma u_factor n l : r_factor (S n) l = match r_base n l with
    | None => None
    | Some (a, r) =>
        if is_char "^" r then match r_group n "{" "}" (tl r) with Some (b, r') => if is_char "^" r' then None else Some (FPow a b, r') | None => None end
        else Some (a, r)
    end. Proof. reflexivity. Qed.
Lemma u_group n op cl l : r_group (S n) op cl l = match expect op l with
    | None => None
    | Some r => match r_sum n r with Some (a, r1) => match expect cl r1 with Some r2 => Some (a, r2) | None => None end | None => None end
    end. Proof. reflexivity. Qed.
Ltac two A B na nb := destruct A as (na & A); destruct B as (nb & B).
Lemma e_sum l a r x : is_char "-" l = false -> evt (fun n => r_product n l) (a, r) -> evt (fun n => r_terms n a r) x -> evt (fun n => r_sum n l) x.
Proof. intros N A B. two A B na nb. apply evt_step. exists (max na nb). intros m L. rewrite u_sum, N, A by lia. apply B. lia. Qed.
Lemma e_neg l a r x : evt (fun n => r_product n l) (a, r) -> evt (fun n => r_terms n (FNeg a) r) x -> evt (fun n => r_sum n (KChar "-" :: l)) x.
Proof. intros A B. two A B na nb. apply evt_step. exists (max na nb). intros m L. rewrite u_sum. cbn [is_char Ascii.eqb Bool.eqb tl]. rewrite A by lia. apply B. lia. Qed.
Lemma e_plus a b l r x : evt (fun n => r_product n l) (b, r) -> evt (fun n => r_terms n (FAdd a b) r) x -> evt (fun n => r_terms n a (KChar "+" :: l)) x.
Proof. intros A B. two A B na nb. apply evt_step. exists (max na nb). intros m L. rewrite u_terms. cbn [is_char Ascii.eqb Bool.eqb tl]. rewrite A by lia. apply B. lia. Qed.
Lemma e_minus a b l r x : evt (fun n => r_product n l) (b, r) -> evt (fun n => r_terms n (FSub a b) r) x -> evt (fun n => r_terms n a (KChar "-" :: l)) x.
Proof. intros A B. two A B na nb. apply evt_step. exists (max na nb). intros m L. rewrite u_terms. cbn [is_char Ascii.eqb Bool.eqb tl]. rewrite A by lia. apply B. lia. Qed.
Lemma e_terms a l : is_char "+" l = false -> is_char "-" l = false -> evt (fun n => r_terms n a l) (a, l).
Proof. intros A B. apply evt_step. exists O. intros m _. now rewrite u_terms, A, B. Qed.
Lemma e_product l a r x : evt (fun n => r_factor n l) (a, r) -> evt (fun n => r_factors n a r) x -> evt (fun n => r_product n l) x.
Proof. intros A B. two A B na nb. apply evt_step. exists (max na nb). intros m L. rewrite u_product, A by lia. apply B. lia. Qed.
Lemma e_times a b l r x : evt (fun n => r_factor n l) (b, r) -> evt (fun n => r_factors n (FMul a b) r) x -> evt (fun n => r_factors n a (KTimes :: l)) x.
Proof. intros A B. two A B na nb. apply evt_step. exists (max na nb). intros m L. rewrite u_factors, A by lia. apply B. lia. Qed.
Lemma e_juxt a b l r x : begins_factor l = true -> evt (fun n => r_factor n l) (b, r) -> evt (fun n => r_factors n (FMul a b) r) x -> evt (fun n => r_factors n a l) x.
Proof.
  intros G A B. two A B na nb. apply evt_step. exists (max na nb). intros m L. rewrite u_factors, G, A by lia. rewrite B by lia. destruct l as [|[] l]; try reflexivity. discriminate.
Qed.
Definition no_times (l : list token) : Prop := match l with KTimes :: _ => False | _ => True end.
Lemma e_factors a l : begins_factor l = false -> no_times l -> evt (fun n => r_factors n a l) (a, l).
Proof. intros G N. apply evt_step. exists O. intros m _. rewrite u_factors, G. destruct l as [|[] l]; try reflexivity. destruct N. Qed.
Lemma e_factor l a r : is_char "^" r = false -> evt (fun n => r_base n l) (a, r) -> evt (fun n => r_factor n l) (a, r).
Proof. intros N A. destruct A as (na & A). apply evt_step. exists na. intros m L. now rewrite u_factor, A, N. Qed.
Lemma e_power l a r b r' : is_char "^" r' = false -> evt (fun n => r_base n l) (a, KChar "^" :: r) -> evt (fun n => r_group n "{" "}" r) (b, r') -> evt (fun n => r_factor n l) (FPow a b, r').
Proof. intros N A B. two A B na nb. apply evt_step. exists (max na nb). intros m L. rewrite u_factor, A by lia. cbn [is_char Ascii.eqb Bool.eqb tl]. now rewrite B, N by lia. Qed.
Lemma e_group op cl l a r : evt (fun n => r_sum n l) (a, KChar cl :: r) -> evt (fun n => r_group n op cl (KChar op :: l)) (a, r).
Proof. intros A. destruct A as (na & A). apply evt_step. exists na. intros m L. rewrite u_group. cbn [expect]. rewrite Ascii.eqb_refl, A by lia. cbn [expect]. now rewrite Ascii.eqb_refl. Qed.
Lemma e_num z r : evt (fun n => r_base n (KNum z :: r)) (FNum z, r). Proof. apply evt_step. exists O. reflexivity. Qed.
Lemma e_sym k r : evt (fun n => r_base n (KSym k :: r)) (FSym k, r). Proof. apply evt_step. exists O. reflexivity. Qed.
Lemma e_frac l a b r r' : evt (fun n => r_group n "{" "}" l) (a, r) -> evt (fun n => r_group n "{" "}" r) (b, r') -> evt (fun n => r_base n (KFrac :: l)) (FDiv a b, r').
Proof. intros A B. two A B na nb. apply evt_step. exists (max na nb). intros m L. change (match r_group m "{" "}" l with Some (a, r1) => match r_group m "{" "}" r1 with Some (b, r2) => Some (FDiv a b, r2) | None => None end | None => None end = Some (FDiv a b, r')). now rewrite A, B by lia. Qed.
Lemma e_sqrt l a r : is_char "[" l = false -> evt (fun n => r_group n "{" "}" l) (a, r) -> evt (fun n => r_base n (KSqrt :: l)) (FRoot (FNum 2) a, r).
Proof.
  intros N A. destruct A as (na & A). apply evt_step. exists na. intros m L. change ((if is_char "[" l then match r_group m "[" "]" l with Some (i, r1) => match r_group m "{" "}" r1 with Some (a, r2) => Some (FRoot i a, r2) | None => None end | None => None end
        else match r_group m "{" "}" l with Some (a, r1) => Some (FRoot (FNum 2) a, r1) | None => None end) = Some (FRoot (FNum 2) a, r)). now rewrite N, A by lia.
Qed.
Lemma e_paren l a r : evt (fun n => r_group n "(" ")" (KChar "(" :: l)) (a, r) -> evt (fun n => r_base n (KChar "(" :: l)) (a, r).
Proof. intros A. destruct A as (na & A). apply evt_step. exists na. intros m L. change (r_group m "(" ")" (KChar "(" :: l) = Some (a, r)). now apply A. Qed.

(** ** texts at each level of the grammar.  [dom]: the assignments of interest *)
Section D.
Variable dom : (string -> R) -> Prop.
Definition is_val (e : formula) (v : (string -> R) -> R) : Prop := forall s, dom s -> value s e = v s.
Definition nohat (l : list token) : Prop := is_char "^" l = false.
Definition stop (l : list token) : Prop := nohat l /\ begins_factor l = false /\ no_times l.
Lemma begins_app a b : begins_factor a = true -> begins_factor (a ++ b) = true. Proof. destruct a as [|[] a]; cbn; auto; discriminate. Qed.
Lemma begins_nohat l : begins_factor l = true -> nohat l. Proof. destruct l as [|[] l]; try reflexivity. unfold nohat. cbn. intros H. apply Ascii.eqb_eq in H. now subst. Qed.
Lemma begins_nominus l : begins_factor l = true -> is_char "-" l = false. Proof. destruct l as [|[] l]; try reflexivity. cbn. intros H. apply Ascii.eqb_eq in H. now subst. Qed.

Definition PBase (ts : list token) (v : (string -> R) -> R) : Prop := begins_factor ts = true /\ exists e, is_val e v /\ forall rest, evt (fun n => r_base n (ts ++ rest)) (e, rest).
Definition PFac (ts : list token) (v : (string -> R) -> R) : Prop := begins_factor ts = true /\ exists e, is_val e v /\ forall rest, nohat rest -> evt (fun n => r_factor n (ts ++ rest)) (e, rest).
Definition PProd (ts : list token) (v : (string -> R) -> R) : Prop := begins_factor ts = true /\ exists e f, is_val e v /\ (forall a s, dom s -> value s (f a) = value s a * v s)%R /\
  (forall rest r, nohat rest -> evt (fun n => r_factors n e rest) r -> evt (fun n => r_product n (ts ++ rest)) r) /\
  (forall a rest r, nohat rest -> evt (fun n => r_factors n (f a) rest) r -> evt (fun n => r_factors n a (KTimes :: ts ++ rest)) r).
Definition PSum (ts : list token) (v : (string -> R) -> R) : Prop := begins_factor ts = true /\ exists e f, is_val e v /\ (forall a s, dom s -> value s (f a) = value s a + v s)%R /\
  (forall rest r, stop rest -> evt (fun n => r_terms n e rest) r -> evt (fun n => r_sum n (ts ++ rest)) r) /\
  (forall a rest r, stop rest -> evt (fun n => r_terms n (f a) rest) r -> evt (fun n => r_terms n a (KChar "+" :: ts ++ rest)) r).
Definition PStart (ts : list token) (v : (string -> R) -> R) : Prop := exists e, is_val e v /\ forall rest r, stop rest -> evt (fun n => r_terms n e rest) r -> evt (fun n => r_sum n (ts ++ rest)) r.
Lemma p_base_fac ts v : PBase ts v -> PFac ts v.
Proof. intros (G & e & V & H). split; [exact G|]. exists e. split; [exact V|]. intros rest N. now apply e_factor. Qed.
Lemma p_fac_prod ts v : PFac ts v -> PProd ts v.
Proof.
  intros (G & e & V & H). split; [exact G|]. exists e, (fun a => FMul a e). split; [exact V|]. split; [intros a s D; cbn [value]; now rewrite (V s D)|]. split.
  - intros rest r N F. now apply (e_product _ e rest); [apply H|].
  - intros a rest r N F. now apply (e_times a e _ rest); [apply H|].
Qed.
Lemma p_prod_out ts v : PProd ts v -> exists e, is_val e v /\ forall rest, stop rest -> evt (fun n => r_product n (ts ++ rest)) (e, rest).
Proof. intros (G & e & f & V & _ & H & _). exists e. split; [exact V|]. intros rest (N & B & T). apply H; [exact N|]. now apply e_factors. Qed.
Lemma p_prod_sum ts v : PProd ts v -> PSum ts v.
Proof.
  intros P. split; [apply P|]. destruct (p_prod_out ts v P) as (e & V & H). exists e, (fun a => FAdd a e). split; [exact V|]. split; [intros a s D; cbn [value]; now rewrite (V s D)|]. split.
  - intros rest r S F. apply (e_sum _ e rest); [apply begins_nominus, begins_app, P|now apply H|exact F].
  - intros a rest r S F. now apply (e_plus a e _ rest); [apply H|].
Qed.
Lemma p_sum_start ts v : PSum ts v -> PStart ts v.
Proof. intros (G & e & f & V & _ & H & _). exists e. auto. Qed.
Lemma p_ext_start ts v v' : (forall s, dom s -> v s = v' s) -> PStart ts v -> PStart ts v'.
Proof. intros E (e & V & H). exists e. split; [intros s D; rewrite (V s D); auto|exact H]. Qed.
Lemma p_ext_sum ts v v' : (forall s, dom s -> v s = v' s) -> PSum ts v -> PSum ts v'.
Proof. intros E (G & e & f & V & W & H). split; [exact G|]. exists e, f. split; [intros s D; rewrite (V s D); auto|]. split; [intros a s D; rewrite (W a s D), (E s D); reflexivity|exact H]. Qed.
Lemma p_ext_prod ts v v' : (forall s, dom s -> v s = v' s) -> PProd ts v -> PProd ts v'.
Proof. intros E (G & e & f & V & W & H). split; [exact G|]. exists e, f. split; [intros s D; rewrite (V s D); auto|]. split; [intros a s D; rewrite (W a s D), (E s D); reflexivity|exact H]. Qed.
Lemma p_ext_fac ts v v' : (forall s, dom s -> v s = v' s) -> PFac ts v -> PFac ts v'.
Proof. intros E (G & e & V & H). split; [exact G|]. exists e. split; [intros s D; rewrite (V s D); auto|exact H]. Qed.
Lemma p_ext_base ts v v' : (forall s, dom s -> v s = v' s) -> PBase ts v -> PBase ts v'.
Proof. intros E (G & e & V & H). split; [exact G|]. exists e. split; [intros s D; rewrite (V s D); auto|exact H]. Qed.
(** combinations *)
Lemma p_group op cl ts v : (cl = "}" \/ cl = ")")%char -> PStart ts v -> exists e, is_val e v /\ forall rest, evt (fun n => r_group n op cl (KChar op :: ts ++ KChar cl :: rest)) (e, rest).
Proof.
  intros C (e & V & H). exists e. split; [exact V|]. intros rest. apply e_group. apply H; [destruct C as [-> | ->]; repeat split|]. apply e_terms; destruct C as [-> | ->]; reflexivity.
Qed.
Lemma p_paren ts v : PStart ts v -> PBase (KChar "(" :: ts ++ [KChar ")"]) v.
Proof.
  intros P. destruct (p_group "(" ")" ts v (or_intror eq_refl) P) as (e & V & H). split; [reflexivity|]. exists e. split; [exact V|]. intros rest. cbn [app]. rewrite <- app_assoc. apply e_paren. apply H.
Qed.
Lemma p_frac a b x y : PStart a x -> PStart b y -> PBase (KFrac :: KChar "{" :: a ++ KChar "}" :: KChar "{" :: b ++ [KChar "}"]) (fun s => x s / y s)%R.
Proof.
  intros A B. destruct (p_group "{" "}" a x (or_introl eq_refl) A) as (e & V & H). destruct (p_group "{" "}" b y (or_introl eq_refl) B) as (e' & V' & H'). split; [reflexivity|]. exists (FDiv e e'). split; [intros s D; cbn [value]; now rewrite (V s D), (V' s D)|].
  intros rest. cbn [app]. rewrite <- app_assoc. cbn [app]. rewrite <- app_assoc. cbn [app]. eapply e_frac; [apply H|apply H'].
Qed.
Lemma p_sqrt a x : PStart a x -> PBase (KSqrt :: KChar "{" :: a ++ [KChar "}"]) (fun s => Rpower (x s) (/ 2))%R.
Proof.
  intros A. destruct (p_group "{" "}" a x (or_introl eq_refl) A) as (e & V & H). split; [reflexivity|]. exists (FRoot (FNum 2) e). split; [intros s D; cbn [value]; now rewrite (V s D)|].
  intros rest. cbn [app]. rewrite <- app_assoc. cbn [app]. apply e_sqrt; [reflexivity|apply H].
Qed.
Lemma p_power a b x y : PBase a x -> PStart b y -> PFac (a ++ KChar "^" :: KChar "{" :: b ++ [KChar "}"]) (fun s => epow (x s) (y s)).
Proof.
  intros (G & e & V & H) B. destruct (p_group "{" "}" b y (or_introl eq_refl) B) as (e' & V' & H'). split; [now apply begins_app|]. exists (FPow e e'). split; [intros s D; cbn [value]; now rewrite (V s D), (V' s D)|].
  intros rest N. rewrite <- app_assoc. cbn [app]. rewrite <- app_assoc. cbn [app]. apply (e_power _ _ (KChar "{" :: b ++ KChar "}" :: rest)); [exact N|apply H|apply H'].
Qed.
Lemma p_juxt a b x y : PProd a x -> PFac b y -> PProd (a ++ b) (fun s => x s * y s)%R.
Proof.
  intros (G & e & f & V & W & H1 & H2) (G' & e' & V' & H'). split; [now apply begins_app|]. exists (FMul e e'), (fun a => FMul (f a) e'). split; [intros s D; cbn [value]; now rewrite (V s D), (V' s D)|]. split; [intros z s D; cbn [value]; rewrite (W z s D), (V' s D); ring|].
  split; [intros rest r N F|intros z rest r N F]; rewrite <- app_assoc.
  - apply H1; [now apply begins_nohat, begins_app|]. apply (e_juxt e e' _ rest); [now apply begins_app|now apply H'|exact F].
  - apply H2; [now apply begins_nohat, begins_app|]. apply (e_juxt (f z) e' _ rest); [now apply begins_app|now apply H'|exact F].
Qed.
Lemma p_times a b x y : PProd a x -> PProd b y -> PProd (a ++ KTimes :: b) (fun s => x s * y s)%R.
Proof.
  intros (G & e & f & V & W & H1 & H2) (G' & e' & f' & V' & W' & H1' & H2'). split; [now apply begins_app|]. exists (f' e), (fun a => f' (f a)). split; [intros s D; now rewrite (W' e s D), (V s D)|]. split; [intros z s D; rewrite (W' (f z) s D), (W z s D); ring|].
  split; [intros rest r N F|intros z rest r N F]; rewrite <- app_assoc.
  - apply H1; [reflexivity|]. apply H2'; assumption.
  - apply H2; [reflexivity|]. apply H2'; assumption.
Qed.
Lemma stop_pm c l : (c = "+" \/ c = "-")%char -> stop (KChar c :: l). Proof. intros [-> | ->]; repeat split. Qed.
Lemma p_sum_sum a b x y : PSum a x -> PSum b y -> PSum (a ++ KChar "+" :: b) (fun s => x s + y s)%R.
Proof.
  intros (G & e & f & V & W & H1 & H2) (G' & e' & f' & V' & W' & H1' & H2'). split; [now apply begins_app|]. exists (f' e), (fun a => f' (f a)). split; [intros s D; now rewrite (W' e s D), (V s D)|]. split; [intros z s D; rewrite (W' (f z) s D), (W z s D); ring|].
  split; [intros rest r N F|intros z rest r N F]; rewrite <- app_assoc.
  - apply H1; [apply stop_pm; auto|]. apply H2'; assumption.
  - apply H2; [apply stop_pm; auto|]. apply H2'; assumption.
Qed.
Lemma p_start_sum a b x y : PStart a x -> PSum b y -> PStart (a ++ KChar "+" :: b) (fun s => x s + y s)%R.
Proof.
  intros (e & V & H1) (G' & e' & f' & V' & W' & H1' & H2'). exists (f' e). split; [intros s D; now rewrite (W' e s D), (V s D)|]. intros rest r N F. rewrite <- app_assoc. apply H1; [apply stop_pm; auto|]. apply H2'; assumption.
Qed.
Lemma p_sum_sub a b x y : PSum a x -> PProd b y -> PSum (a ++ KChar "-" :: b) (fun s => x s - y s)%R.
Proof.
  intros (G & e & f & V & W & H1 & H2) B. destruct (p_prod_out b y B) as (e' & V' & H'). split; [now apply begins_app|]. exists (FSub e e'), (fun a => FSub (f a) e'). split; [intros s D; cbn [value]; now rewrite (V s D), (V' s D)|]. split; [intros z s D; cbn [value]; rewrite (W z s D), (V' s D); ring|].
  split; [intros rest r N F|intros z rest r N F]; rewrite <- app_assoc.
  - apply H1; [apply stop_pm; auto|]. apply (e_minus e e' _ rest); [now apply H'|exact F].
  - apply H2; [apply stop_pm; auto|]. apply (e_minus (f z) e' _ rest); [now apply H'|exact F].
Qed.
Lemma p_start_sub a b x y : PStart a x -> PProd b y -> PStart (a ++ KChar "-" :: b) (fun s => x s - y s)%R.
Proof.
  intros (e & V & H1) B. destruct (p_prod_out b y B) as (e' & V' & H'). exists (FSub e e'). split; [intros s D; cbn [value]; now rewrite (V s D), (V' s D)|]. intros rest r N F. rewrite <- app_assoc. apply H1; [apply stop_pm; auto|]. apply (e_minus e e' _ rest); [now apply H'|exact F].
Qed.
Lemma p_neg a x : PProd a x -> PStart (KChar "-" :: a) (fun s => - x s)%R.
Proof. intros A. destruct (p_prod_out a x A) as (e & V & H). exists (FNeg e). split; [intros s D; cbn [value]; now rewrite (V s D)|]. intros rest r N F. cbn [app]. apply (e_neg _ e rest); [now apply H|exact F]. Qed.
Lemma p_num z : PBase [KNum z] (fun _ => IZR z). Proof. split; [reflexivity|]. exists (FNum z). split; [intros s _; reflexivity|]. intros rest. apply e_num. Qed.
Lemma p_sym k : PBase [KSym k] (fun s => s k). Proof. split; [reflexivity|]. exists (FSym k). split; [intros s _; reflexivity|]. intros rest. apply e_sym. Qed.
End D.
