(** The narrow phase always returns, with at most two contacts; any arithmetic in which a line cannot have the origin strictly on the left both ways round. *)
From Coq Require Import ZArith NArith Bool List Lia.
From Verif Require Import Num.
From Verif.Model Require Import Vector BB Transform Shapes Handlers Collision.
Import ListNotations.
Local Open Scope nat_scope.

Section Term.
Context {T : Type} `{Num T}.
Hypothesis flip : forall a b : Vec T, pointgreater a b vzero = true -> pointgreater b a vzero = false.

Lemma epa_total c1 c2 : forall fuel hull it, it + fuel = S maxEpa -> 0 < fuel -> epa_recurse fuel c1 c2 hull it <> None.
Proof.
  induction fuel as [|fuel IH]; intros hull it Hs Hf; [lia|]. cbn [epa_recurse].
  match goal with |- context [if ?x then _ else _] => destruct x eqn:E end; [|discriminate].
  apply andb_prop in E as [_ E]. apply Nat.ltb_lt in E. apply IH; lia.
Qed.
Lemma gjk_total c1 c2 : forall k it fuel v0 v1, it + k = S maxGjk ->
  (2 * k + 1 <= fuel \/ (2 * k <= fuel /\ 0 < k /\ pointgreater (mk_ab v1) (mk_ab v0) vzero = false)) -> gjk_recurse fuel c1 c2 v0 v1 it <> None.
Proof.
  induction k as [|k IH]; intros it fuel v0 v1 Hs Hf.
  - destruct fuel as [|fuel]; [lia|]. cbn [gjk_recurse]. replace (maxGjk <? it) with true by (symmetry; apply Nat.ltb_lt; lia). discriminate.
  - assert (Main : forall fuel v0 v1, 2 * k + 2 <= fuel -> pointgreater (mk_ab v1) (mk_ab v0) vzero = false -> gjk_recurse fuel c1 c2 v0 v1 it <> None).
    { clear fuel v0 v1 Hf. intros fuel v0 v1 Hf Hp. destruct fuel as [|fuel]; [lia|]. cbn [gjk_recurse].
      replace (maxGjk <? it) with false by (symmetry; apply Nat.ltb_ge; lia). rewrite Hp.
      match goal with |- (if ?x then _ else _) <> _ => destruct x end; [apply epa_total; unfold maxEpa; lia|].
      match goal with |- (if ?x then _ else _) <> _ => destruct x end; [discriminate|].
      match goal with |- (if ?x then _ else _) <> _ => destruct x end; apply IH; lia. }
    destruct (pointgreater (mk_ab v1) (mk_ab v0) vzero) eqn:E.
    + destruct Hf as [Hf|(_ & _ & Hf)]; [|discriminate]. destruct fuel as [|fuel]; [lia|]. cbn [gjk_recurse].
      replace (maxGjk <? it) with false by (symmetry; apply Nat.ltb_ge; lia). rewrite E. apply Main; [lia|]. now apply flip.
    + apply Main; [lia|assumption].
Qed.
Lemma gjk_some (a b : CShape T) id : gjk a b id <> None.
Proof. unfold gjk. match goal with |- context [let (_, _) := ?x in _] => destruct x as [v0 v1] end. apply (gjk_total _ _ 30); unfold gjk_fuel, maxGjk; lia. Qed.
Lemma contacts_two e1 e2 pts info : ci_arr info = [] -> exists info', contact_points e1 e2 pts info = Some info' /\ length (ci_arr info') <= 2.
Proof.
  intros E. unfold contact_points. destruct (nltb _ _); [exists info; rewrite E; auto with arith|].
  unfold push_contact, set_n. cbn [ci_arr]. rewrite E. cbn [length].
  match goal with |- context [match (if ?x then _ else _) with _ => _ end] => destruct x end; cbn;
  match goal with |- context [if ?x then _ else _] => destruct x end; eexists; (split; [reflexivity|]); cbn [length ci_arr app]; rewrite ?E; cbn; lia.
Qed.
Lemma call_some f a b info : ci_arr info = [] -> nth_error builtin (order (cs_class a) + order (cs_class b) * 3) = Some f -> order (cs_class a) <= order (cs_class b) ->
  exists info', call f a b info = Some info' /\ length (ci_arr info') <= 2.
Proof.
  intros E Hf Ho. destruct (cs_class a) as [c1 r1|g1|ps1 r1] eqn:Ea, (cs_class b) as [c2 r2|g2|ps2 r2] eqn:Eb; cbn in Hf, Ho; try lia; injection Hf as <-;
  unfold call; rewrite Ea, Eb; cbn iota.
  - unfold circle_to_circle, push_contact, set_n. cbn [ci_arr]. rewrite E. cbn. match goal with |- context [if ?x then _ else _] => destruct x end; eexists; (split; [reflexivity|]); cbn; rewrite ?E; cbn; lia.
  - unfold circle_to_segment, push_contact, set_n. cbn [ci_arr]. rewrite E. cbn [length]. cbn [Nat.ltb Nat.leb].
    match goal with |- context [if ?x then (if _ then _ else _) else _] => destruct x end.
    + match goal with |- context [if ?x then Some _ else Some _] => destruct x end; eexists; (split; [reflexivity|]); cbn; rewrite ?E; cbn; lia.
    + eexists; (split; [reflexivity|]); cbn; rewrite ?E; cbn; lia.
  - unfold circle_to_poly. destruct (gjk a b (ci_id info)) as [[pts fl]|] eqn:G; [|now apply gjk_some in G].
    match goal with |- context [if ?x then _ else _] => destruct x end; [|eexists; split; [reflexivity|]; cbn; rewrite E; cbn; lia].
    unfold push_contact. cbn [ci_arr set_n set_id]. rewrite E. cbn. eexists; split; [reflexivity|]. cbn. lia.
  - unfold segment_to_segment. destruct (gjk a b (ci_id info)) as [[pts fl]|] eqn:G; [|now apply gjk_some in G].
    destruct (nltb _ _); [eexists; split; [reflexivity|]; cbn; rewrite E; cbn; lia|].
    match goal with |- context [if ?x then _ else _] => destruct x end; [apply contacts_two; exact E|eexists; split; [reflexivity|]; cbn; rewrite E; cbn; lia].
  - unfold segment_to_poly. destruct (gjk a b (ci_id info)) as [[pts fl]|] eqn:G; [|now apply gjk_some in G].
    match goal with |- context [if ?x then _ else _] => destruct x end; [apply contacts_two; exact E|eexists; split; [reflexivity|]; cbn; rewrite E; cbn; lia].
  - unfold poly_to_poly. destruct (gjk a b (ci_id info)) as [[pts fl]|] eqn:G; [|now apply gjk_some in G].
    match goal with |- context [if ?x then _ else _] => destruct x end; [apply contacts_two; exact E|eexists; split; [reflexivity|]; cbn; rewrite E; cbn; lia].
Qed.
Lemma collide_some (a b : CShape T) id : exists sw info, collide a b id = Some (sw, info) /\ length (ci_arr info) <= 2.
Proof.
  unfold collide. destruct (order (cs_class b) <? order (cs_class a)) eqn:E.
  - apply Nat.ltb_lt in E. destruct (nth_error builtin (order (cs_class b) + order (cs_class a) * 3)) as [f|] eqn:Ef.
    + destruct (call_some f b a (mkCI id vzero []) eq_refl Ef) as (info & Hi & Hl); [lia|]. rewrite Hi. cbn. eauto.
    + exfalso. destruct (cs_class a), (cs_class b); discriminate.
  - apply Nat.ltb_ge in E. destruct (nth_error builtin (order (cs_class a) + order (cs_class b) * 3)) as [f|] eqn:Ef.
    + destruct (call_some f a b (mkCI id vzero []) eq_refl Ef) as (info & Hi & Hl); [lia|]. rewrite Hi. cbn. eauto.
    + exfalso. destruct (cs_class a), (cs_class b); discriminate.
Qed.
End Term.
