[
{"file":"NetAlg_Model","def":"connect","old":"Done (mkStore (conns s ++ [(a, b)]) (lists s) (fresh s)).","new":"Done (mkStore (conns s ++ [(b, a)]) (lists s) (fresh s)).","edit":"connection reversed","breaks":["C77"]},
{"file":"NetAlg_Model","def":"shift_net","old":"| Done s1 => connect s1 i self","new":"| Done s1 => connect s1 i other","edit":"identity fed back to the source","breaks":["C77"]},
{"file":"NetAlg_Model","def":"shift_net","old":"connect (mkStore (conns s) (lists s) (S i)) other i","new":"connect (mkStore (conns s) (lists s) i) other i","edit":"one identity connection shared by all summands","breaks":["C77"]},
{"file":"NetAlg_Model","def":"shift_all","old":"Done s1 => shift_all kd s1 self r","new":"Done s1 => Done s1","edit":"only the first summand is connected","breaks":["C77"]},
{"file":"NetAlg_Model","def":"add","old":"| VNet x, VNet y => Done (mkStore (conns s) (lists s ++ [[x; y]])","new":"| VNet x, VNet y => Done (mkStore (conns s) (lists s ++ [[x; x]])","edit":"NetworkList([self, self])","breaks":["C77"]},
{"file":"NetAlg_Model","def":"append","old":"update (lists s) r (l ++ [n])","new":"update (lists s) r [n]","edit":"append replaces the list","breaks":["C77"]},
{"file":"NetAlg_Model","def":"matmul","old":"match connect s x w with Done s1 => Done (s1, VNet w)","new":"match connect s x w with Done s1 => Done (s1, VNet x)","edit":"the product returns the vector","breaks":["C77"]},
{"file":"NetAlg_Model","def":"connect","old":"if existsb (pair_eqb (a, b)) (conns s) then Raised\n  else ","new":"","edit":"duplicate connections accepted","breaks":["C77"]},
{"file":"NetAlg_Model","def":"matmul","old":"match connect s x w with Done s1 => Done (s1, VNet w) | Raised => Raised end","new":"Done (s, VNet w)","edit":"the product does not connect the vector","breaks":["C77"]}
]
