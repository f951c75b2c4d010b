[
{"file":"Wire_Model","def":"with_self","old":"Some v => Some (fst r, snd r ++ [v])","new":"Some v => Some (fst r, v :: snd r)","edit":"a virtual port puts itself before the ports upstream of it","breaks":["C99"]},
{"file":"Wire_Model","def":"with_self","old":"| ReshapePort | TransposePort => match vp a","new":"| ReshapePort => Some r\n  | TransposePort => match vp a","edit":"reshape ports are not put on the list","breaks":["C99"]},
{"file":"Wire_Model","def":"incoming_funcs","old":"match snd r with [] => d | vs => kset (fst r) vs d end","new":"match snd r with [] => d | vs => kset (fst r) (rev vs) d end","edit":"functions of an incoming connection in reverse order","breaks":["C99"]},
{"file":"Wire_Model","def":"incoming_funcs","old":"match snd r with [] => d | vs => kset (fst r) vs d end","new":"match snd r with [] => d | [v] => d | vs => kset (fst r) vs d end","edit":"a single virtual port is not entered","breaks":["C99"]},
{"file":"Wire_Model","def":"outgoing_funcs","old":"kset (fst r) (snd r) d","new":"kset (fst r) (rev (snd r)) d","edit":"functions of an outgoing connection in reverse order","breaks":["C99"]},
{"file":"Wire_Model","def":"channel_builders","old":"then [(snd sd, fst sd)] else []","new":"then [(fst sd, snd sd)] else []","edit":"the second channel of a VarPort runs in the same direction as the first","breaks":["C99"]},
{"file":"Wire_Model","def":"channel_builders","old":"if is_var_port (class_of g (snd sd)) then","new":"if negb (is_var_port (class_of g (snd sd))) then","edit":"the second channel is made for ports that are not VarPorts","breaks":["C99"]},
{"file":"Wire_Model","def":"is_var_port","old":"Some VarPort | Some ImplicitVarPort => true","new":"Some VarPort => true","edit":"no answer channel for implicit VarPorts","breaks":["C99"]},
{"file":"Wire_Model","def":"set_csp_port","old":"(csp_ports B p n ++ [c])","new":"[c]","edit":"a new channel replaces the earlier ones of the port","breaks":["C99"]},
{"file":"Wire_Model","def":"add_mapping","old":"(kset k ch (csp_port_map B p n))","new":"[(k, ch)]","edit":"a new mapping replaces the earlier ones of the port","breaks":["C99"]},
{"file":"Wire_Model","def":"build_channel","old":"(pid N p, pname N (fst sd)) ch\n","new":"(pid N q, pname N (fst sd)) ch\n","edit":"the mapping is entered under the id of the destination's process","breaks":["C99"]},
{"file":"Wire_Model","def":"build_channel","old":"(pid N p, pname N (fst sd)) ch\n","new":"(pid N p, pname N (snd sd)) ch\n","edit":"the mapping is entered under the name of the destination port","breaks":["C99"]},
{"file":"Wire_Model","def":"build_channel","old":"set_csp_port p (pname N (fst sd)) (CspSend ch) B","new":"set_csp_port p (pname N (snd sd)) (CspSend ch) B","edit":"the sending end goes to the port with the destination's name","breaks":["C99"]},
{"file":"Wire_Model","def":"build_channel","old":"set_csp_port q (pname N (snd sd)) (CspRecv ch)","new":"set_csp_port q (pname N (snd sd)) (CspRecv 0)","edit":"every receiving end is that of channel 0","breaks":["C99"]},
{"file":"Wire_Model","def":"build_channels","old":"build_channels g N B' (S ch) r","new":"build_channels g N B' ch r","edit":"all channels have the same number","breaks":["C99"]},
{"file":"Wire_Model","def":"make_transformer","old":"Some vs => vs | None => [] end)) m))","new":"Some vs => vs | None => snd (hd (0%Z, EmptyString, []) funcs) end)) m))","edit":"a channel without functions gets those of the first entry","breaks":["C99"]},
{"file":"Wire_Model","def":"transform","old":"run_funcs (map f vs) x | None => None","new":"run_funcs (map f (tl vs)) x | None => None","edit":"the first function is left out","breaks":["C99"]},
{"file":"Wire_Model","def":"transform","old":"match assoc ch fs with Some vs","new":"match assoc (S ch) fs with Some vs","edit":"functions of the next channel","breaks":["C99"]},
{"file":"Wire_Model","def":"build_in","old":"in_shape := pshape pd","new":"in_shape := rev (pshape pd)","edit":"the accumulator of an InPort has the reversed shape","breaks":["C99"]},
{"file":"Wire_Model","def":"build_refport","old":"if is_ref then outgoing_funcs lim g N vp a else incoming_funcs lim g N vp a","new":"if is_ref then incoming_funcs lim g N vp a else outgoing_funcs lim g N vp a","edit":"incoming and outgoing functions swapped for RefPorts and VarPorts","breaks":["C99"]},
{"file":"Wire_Model","def":"first_recv","old":"CspSend _ :: CspRecv i :: _ => Some i","new":"CspSend i :: CspRecv _ :: _ => Some i","edit":"the RefPort waits for answers on its request channel","breaks":["C99"]},
{"file":"Wire_Model","def":"plus","old":"(fst p + snd p)%Z","new":"(snd p)%Z","edit":"the last array received replaces the sum","breaks":["C99"]},
{"file":"Wire_Model","def":"recv_loop","old":"Some acc' => recv_loop t msgs r acc'","new":"Some acc' => Some acc'","edit":"recv reads the first channel only","breaks":["C99"]},
{"file":"Wire_Model","def":"recv_loop","old":"match transform fwd t i m with","new":"match transform bwd t i m with","edit":"recv applies the inverse functions","breaks":["C99"]},
{"file":"Wire_Model","def":"out_ports","old":"pclass_eqb c OutPort","new":"pclass_eqb c InPort","edit":"InPorts send","breaks":["C99"]},
{"file":"Wire_Model","def":"zeros","old":"repeat 0%Z (prod sh)","new":"repeat 1%Z (prod sh)","edit":"recv starts from ones","breaks":["C99"]},
{"file":"Wire_Model","def":"has_initializer","old":"negb (is_virtual (cls p)) &&","new":"true || negb (is_virtual (cls p)) &&","edit":"a virtual port counts as a port of a process: a channel ends at a dangling virtual port","breaks":["C99"]},
{"file":"Wire_Model","def":"upd2","old":"(q =? p) && String.eqb m n","new":"String.eqb m n","edit":"the tables are shared by processes with ports of the same name","breaks":["C99"]},
{"file":"Wire_Model","def":"key_eqb","old":"Z.eqb (fst a) (fst b) && String.eqb (snd a) (snd b)","new":"String.eqb (snd a) (snd b)","edit":"ports are told apart by name only, not by process","breaks":["C99"]},
{"file":"Wire_Model","def":"incoming_vports","old":"(fst (last rs r), List.concat (map snd (r :: rs)))\n                 | _ => None\n                 end\n          end\n      end\n  end.\n(** get_incoming_transform_funcs","new":"(fst r, List.concat (map snd (r :: rs)))\n                 | _ => None\n                 end\n          end\n      end\n  end.\n(** get_incoming_transform_funcs","edit":"the first source found instead of the last: the same on ways that are joined at the end only; changes the refuted case","breaks":["C99"]}
]
