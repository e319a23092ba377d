(** Theorems about isxml (clib/xmlstring.c). *)
From Verif Require Import PyStr IsXml IsXmlSpec IsXmlFacts.
Local Open Scope N_scope.

(** ** C73 *)
Theorem C73_text u : Forall scalar u -> (forall r, u <> 0 :: r) -> (forall r, u <> 0xFEFF :: r) -> isxml (utf8 u) = true <-> starts_markup u.
Proof. exact (isxml_text u). Qed.
Print Assumptions C73_text.
(** Any bytes without one of the signatures and byte order marks *)
Theorem C73_bytes bs : Forall byte bs -> (forall s, In s signatures \/ In s marks -> ~ begins bs s) ->
  isxml bs = true <-> exists u, bs = utf8 u /\ Forall scalar u /\ starts_markup u.
Proof. exact (isxml_utf8 bs). Qed.
Print Assumptions C73_bytes.
(** UTF-8 is one to one, and what the decoder accepts is exactly what the encoding yields. *)
Theorem C73_decoder bs u : utf8_decode bs = Some u <-> bs = utf8 u /\ Forall scalar u.
Proof. exact (utf8_iff bs u). Qed.
Print Assumptions C73_decoder.

(** ** C94: byte order marks and signatures *)
Theorem C94_utf8 u : Forall scalar u -> isxml ([0xEF; 0xBB; 0xBF] ++ utf8 u) = true <-> starts_markup u.
Proof. exact (isxml_bom8 u). Qed.
Print Assumptions C94_utf8.
Theorem C94_utf16 big u : Forall scalar u -> (forall r, u <> 0 :: r) -> isxml (mark16 big ++ utf16 big u) = true <-> starts_markup u.
Proof. exact (isxml_mark16 big u). Qed.
Print Assumptions C94_utf16.
Theorem C94_utf32 big u : Forall scalar u -> isxml (mark32 big ++ utf32 big u) = true <-> starts_markup u.
Proof. exact (isxml_mark32 big u). Qed.
Print Assumptions C94_utf32.
Theorem C94_signature s r : In s signatures -> isxml (s ++ r) = true.
Proof. exact (isxml_signature s r). Qed.
Print Assumptions C94_signature.
(** Finding: the answer on UTF-16 without byte order mark depends on the byte order, for every
    document that does not begin with "<?". *)
Theorem C94_no_mark_refuted : exists u, Forall scalar u /\ starts_markup u /\ isxml (utf16 true u) = false.
Proof. exists (lit "<a/>"). split; [repeat (apply Forall_cons; [left; reflexivity|]); constructor|]. split; [exists [], (lit "a/>"); split; [reflexivity|constructor]|reflexivity]. Qed.
Print Assumptions C94_no_mark_refuted.
(** Finding: four bytes of which the last three are not looked at as text are enough. *)
Theorem C94_nul_refuted : exists u, Forall scalar u /\ ~ starts_markup u /\ isxml (utf8 u) = true.
Proof.
  exists [0; 0; 0x3C; 0]. split; [repeat (apply Forall_cons; [left; reflexivity|]); constructor|]. split; [|reflexivity].
  intros (ws & r & E & Hw). destruct ws as [|w ws]; [discriminate|]. inversion E; subst. inversion Hw as [|x l Hx Hl]; subst. destruct Hx as [H|[H|[H|H]]]; discriminate.
Qed.
Print Assumptions C94_nul_refuted.

Definition u1 : str := [0x20; 0x0A; 0x3C; 0x1F600; 0x2F; 0x3E; 0xE9; 0x20AC].
Example C73_case : Forall scalar u1 /\ starts_markup u1 /\ isxml (utf8 u1) = true /\ isxml (utf8 (0xE9 :: u1)) = false /\
  isxml (utf8 u1 ++ [0xFF]) = false /\ utf8 u1 = [0x20; 0x0A; 0x3C; 0xF0; 0x9F; 0x98; 0x80; 0x2F; 0x3E; 0xC3; 0xA9; 0xE2; 0x82; 0xAC].
Proof.
  split; [unfold u1; repeat (apply Forall_cons; [first [left; reflexivity|right; split; [discriminate|reflexivity]]|]); constructor|].
  split; [exists [0x20; 0x0A], [0x1F600; 0x2F; 0x3E; 0xE9; 0x20AC]; split; [reflexivity|]; repeat (apply Forall_cons; [unfold white; tauto|]); constructor|].
  repeat split; reflexivity.
Qed.
Example C94_case : isxml (mark16 true ++ utf16 true u1) = true /\ isxml (mark16 false ++ utf16 false u1) = true /\ isxml (mark32 true ++ utf32 true u1) = true /\
  isxml (mark16 true ++ utf16 true (0xE9 :: u1)) = false /\ isxml (mark16 true ++ utf16 false u1) = false /\ isxml (utf16 false (lit "<?xml?>")) = true.
Proof. repeat split; reflexivity. Qed.
