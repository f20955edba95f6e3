(** Facts about strings used by several proofs. *)
From Coq Require Import List Bool String Ascii NArith Lia.
From Coq Require Import HexString DecimalString DecimalN DecimalFacts.
From Verif Require Import Prelude PreludeFacts LatexProofs.
Import ListNotations.
Open Scope string_scope.

(** No occurrence of character [c]. *)
Fixpoint no_char (c : ascii) (s : string) : bool :=
  match s with
  | EmptyString => true
  | String d r => negb (Ascii.eqb d c) && no_char c r
  end.

Lemma no_char_app c a b : no_char c (a ++ b) = no_char c a && no_char c b.
Proof. induction a; cbn; [reflexivity|]. rewrite IHa. now rewrite andb_assoc. Qed.

Lemma split_char c a b x y :
  no_char c a = true -> no_char c b = true ->
  a ++ String c x = b ++ String c y -> a = b /\ x = y.
Proof.
  revert b. induction a as [|u a IH]; destruct b as [|v b]; cbn; intros Ha Hb E.
  - injection E as ->. auto.
  - injection E as <- E. rewrite Ascii.eqb_refl in Hb. discriminate.
  - injection E as -> E. rewrite Ascii.eqb_refl in Ha. discriminate.
  - injection E as -> E. apply andb_true_iff in Ha, Hb.
    destruct (IH b) as [-> ->]; tauto.
Qed.

Lemma prefix_iff s t : prefix s t = true <-> exists v, t = s ++ v.
Proof.
  split; [apply prefix_split|]. intros (v & ->). apply prefix_app.
Qed.

(** Decimal rendering is injective. *)
Lemma to_uint_not_nil n : N.to_uint n <> Decimal.Nil.
Proof.
  intros E. destruct n as [|p]; [discriminate|].
  assert (F : N.of_uint (N.to_uint (Npos p)) = Npos p) by apply Unsigned.of_to.
  rewrite E in F. discriminate.
Qed.

Lemma dec_inj a b : dec a = dec b -> a = b.
Proof.
  unfold dec. intros E. apply (f_equal NilZero.uint_of_string) in E.
  rewrite !NilZero.usu in E by apply to_uint_not_nil.
  injection E as E. apply (f_equal N.of_uint) in E.
  now rewrite !Unsigned.of_to in E.
Qed.

Lemma no_char_dec_gen c d :
  (forall x, In x ["0"%char;"1"%char;"2"%char;"3"%char;"4"%char;"5"%char;"6"%char;"7"%char;"8"%char;"9"%char] -> Ascii.eqb x c = false) ->
  no_char c (NilZero.string_of_uint d) = true.
Proof.
  intros Hc.
  assert (G : no_char c (NilEmpty.string_of_uint d) = true).
  { induction d; cbn [NilEmpty.string_of_uint no_char]; [reflexivity| ..]; rewrite IHd, Hc by (cbn; tauto); reflexivity. }
  unfold NilZero.string_of_uint. destruct d; try assumption.
  cbn [no_char]. rewrite Hc by (cbn; tauto). reflexivity.
Qed.

(** Hexadecimal rendering: [0x] followed by digits. *)
Lemma hex_raw_no_slash p rest :
  no_char "/" rest = true -> no_char "/" (HexString.Raw.of_pos p rest) = true.
Proof.
  revert p rest. fix IH 1. intros p rest Hr.
  destruct p as [p|p|]; [..|exact Hr];
  (destruct p as [p|p|]; [..|exact Hr]);
  (destruct p as [p|p|]; [..|exact Hr]);
  (destruct p as [p|p|]; [..|exact Hr]);
  (cbn [HexString.Raw.of_pos]; apply IH; exact Hr).
Qed.

(** Python [hex(n)[2:]]. *)
Definition hex_tail (s : string) : string :=
  match s with String _ (String _ r) => r | _ => "" end.
Lemma hex_no_slash n : no_char "/" (hex_tail (HexString.of_N n)) = true.
Proof.
  destruct n as [|p]; [reflexivity|]. cbn [HexString.of_N HexString.of_pos hex_tail].
  unfold HexString.of_pos. cbn [hex_tail]. now apply hex_raw_no_slash.
Qed.
Lemma hex_tail_inj a b :
  hex_tail (HexString.of_N a) = hex_tail (HexString.of_N b) -> a = b.
Proof.
  intros E.
  assert (F : HexString.of_N a = HexString.of_N b).
  { destruct a as [|p], b as [|q]; cbn [HexString.of_N] in *;
      unfold HexString.of_pos in *; cbn [hex_tail] in E; try reflexivity; now rewrite E. }
  apply (f_equal HexString.to_N) in F. now rewrite !HexString.to_N_of_N in F.
Qed.
