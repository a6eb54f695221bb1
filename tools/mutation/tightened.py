"""Which theorems were added or tightened because of which seeded bug."""
T={
9:dict(tightened=['C13_split_arc_at_end'],note='survived at first'),
64:dict(tightened=['C32_consistent'],note='survived at first: C32 did not state the direction flag'),
87:dict(tightened=['C34_exclude_order'],note='survived at first: the selectors only had to choose some candidate'),
91:dict(tightened=['C50_boundary'],note='survived at first'),
93:dict(tightened=['C36_self'],note='survived at first'),
133:dict(tightened=['C41_stitched','C41_pieces_far'],note='survived at first'),
148:dict(tightened=['C44_queries'],note='survived at first'),
128:dict(note='no observable effect on the claim: the pair is only pushed twice, the same slice points are produced'),
99:dict(tightened=['C51_round_join','C51_corner'],note='survived at first'),
100:dict(tightened=['C51_round_join','C51_corner'],note='survived at first'),
103:dict(tightened=['C51_trim_start'],note='survived at first'),
104:dict(tightened=['C51_trim_end'],note='survived at first'),
105:dict(tightened=['C51_no_repeats'],note='survived at first'),
154:dict(tightened=['C51_trim_first'],note='survived at first'),
237:dict(tightened=['C62_line_arc', 'C62_arc_line', 'C62_arc_arc'],note='survived at first'),
238:dict(tightened=['C62_line_arc', 'C62_arc_line', 'C62_arc_arc'],note='survived at first'),
240:dict(tightened=['C62_line_arc', 'C62_arc_line', 'C62_arc_arc'],note='survived at first'),
244:dict(tightened=['C63_end_cuts'],note='survived at first'),
245:dict(tightened=['C63_end_cuts'],note='survived at first'),
268:dict(tightened=['C60_islands'],note='survived at first'),
220:dict(tightened=['C32_exact'],note='survived at first'),
221:dict(tightened=['C32_exact'],note='survived at first'),
232:dict(tightened=['C61_contact'],note='survived at first'),
183:dict(tightened=['C17_point'],note='survived at first'),
176:dict(tightened=['C17_point'],note='survived at first'),
197:dict(tightened=['C15_expand'],note='survived at first'),
285:dict(tightened=['C39_line_degenerate'],note='added for the case the earlier theorems left out'),
180:dict(note='the zero case is only reached through unit normals of zero length segments; seeded bug 285 covers it where it is observable'),
267:dict(note='no observable effect on the claim'),
325:dict(tightened=['C42_capacity_reported'],note='survived at first'),
327:dict(tightened=['C43_delete_null'],note='survived at first'),
}
