M = []
def m(name, file, definition, old, new, claim, **k): M.append(dict(name=name, file=file + '.v', **{'def': definition}, old=old, new=new, claim=claim, **k))
m('ws1','Model_PipelinePod','pod_rank','do wl <- local_weights w ax cm m;','do wl <- local_weights w 0%N cm m;','C167 POD cuts the weights along the longest axis')
m('ws2','Model_Base','define_weights','length (flat w) =? nx * nv then Ok w else','(length (shape w) =? S (length xshape)) && (length (flat w) =? nx * nv) then Ok w else','C167 only the number of weights is checked')
m('ws3','Model_Base','define_weights','nx * nv then Ok w else Err ValueError','nx * nv then Ok (Nd (xshape ++ [nv]) (flat w)) else Err ValueError','C167 the weights keep the shape in which they were passed')
