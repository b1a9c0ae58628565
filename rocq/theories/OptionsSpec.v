(** Specification of the options builder: five independent settings. *)
From Verif Require Import Base Options.

Record settings := {
  s_integer : Integer; s_float : Float; s_byteorder : ByteOrder;
  s_length : Width; s_map_keys : bool }.

(** The documented defaults: variable integers, floats as integers, little
    endian, variable lengths, no numeric map keys (options.rs test_builds). *)
Definition default_settings : settings :=
  {| s_integer := IVariable; s_float := FInteger; s_byteorder := Little;
     s_length := WVariable; s_map_keys := false |}.

(** What each builder call is documented to change. *)
Definition spec_call (p : plat) (s : settings) (c : opt_call) : settings :=
  match c with
  | CInteger i => {| s_integer := i; s_float := s_float s; s_byteorder := s_byteorder s;
                     s_length := s_length s; s_map_keys := s_map_keys s |}
  | CFloat f => {| s_integer := s_integer s; s_float := f; s_byteorder := s_byteorder s;
                   s_length := s_length s; s_map_keys := s_map_keys s |}
  | CByteOrder b => {| s_integer := s_integer s; s_float := s_float s; s_byteorder := b;
                       s_length := s_length s; s_map_keys := s_map_keys s |}
  | CNativeByteOrder => {| s_integer := s_integer s; s_float := s_float s;
                       s_byteorder := native_bo p;
                       s_length := s_length s; s_map_keys := s_map_keys s |}
  | CPointer w => {| s_integer := s_integer s; s_float := s_float s;
                     s_byteorder := s_byteorder s;
                     s_length := w; s_map_keys := s_map_keys s |}
  | CMapKeys => {| s_integer := s_integer s; s_float := s_float s;
                   s_byteorder := s_byteorder s;
                   s_length := s_length s; s_map_keys := true |}
  | CFixed => {| s_integer := IFixed; s_float := FFixed; s_byteorder := s_byteorder s;
                 s_length := native_width p; s_map_keys := s_map_keys s |}
  | CVariable => {| s_integer := IVariable; s_float := FVariable;
                    s_byteorder := s_byteorder s;
                    s_length := WVariable; s_map_keys := s_map_keys s |}
  end.

(** What the getters report for an options value. *)
Definition observe (o : N) : settings :=
  {| s_integer := integer_value o; s_float := float_value o;
     s_byteorder := byteorder_value o; s_length := length_value o;
     s_map_keys := is_map_keys_as_numbers_value o |}.
