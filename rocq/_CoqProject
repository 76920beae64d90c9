-Q theories Verif
theories/Bytes.v
theories/Utf8.v
theories/Data.v
theories/Slab.v
theories/Parser.v
theories/Render.v
theories/Tree.v
theories/Abs.v
theories/Refine.v
theories/Utf8Props.v
theories/Scan.v
theories/AbsText.v
theories/TextProps.v
theories/AbsNice.v
theories/RenderProps.v
theories/Num.v
theories/Api.v
theories/Ctx.v
theories/Edit.v
theories/Built.v
theories/Serde.v
theories/Tests.v
theories/Refuted.v
theories/Reads.v
theories/ReadsSound.v
theories/Shown.v
theories/Plain.v
theories/Valid.v
theories/White.v
theories/Grammar.v
theories/Laid.v
theories/GrammarSound.v
theories/LaidText.v
theories/Swap.v
theories/Repost.v
theories/Grow.v
theories/Open.v
theories/Tidy.v
theories/Session.v
theories/Back.v
theories/PropsParse.v
theories/PropsEdit.v
theories/PropsColl.v
theories/PropsValue.v
theories/PropsScalar.v
theories/PropsScalar2.v
theories/PropsText.v
theories/Check.v
theories/PropsBack.v
theories/RefutedBack.v
theories/PropsMake.v
theories/PropsBlock.v
theories/PropsBuild.v
theories/PropsMisc.v
theories/PropsWhite.v
theories/Exact.v
theories/EscByte.v
theories/Slashes.v
theories/PropsExact.v
theories/PropsMore.v
theories/Located.v
theories/ErrorText.v
theories/PropsError.v
theories/Handles.v
theories/Lexed.v
theories/PropsTold.v
theories/Means.v
theories/Places.v
theories/MeansSound.v
theories/MeansComplete.v
theories/PropsMeans.v
theories/Printed.v
theories/PrintedSound.v
theories/PrintedComplete.v
theories/PropsPrinted.v
theories/Fails.v
theories/FailsSound.v
theories/FailsComplete.v
theories/PropsFails.v
theories/Sink.v
theories/SinkProps.v
theories/PropsSink.v
theories/Depth.v
theories/DepthProps.v
theories/PropsDepth.v
theories/PropsKeys.v
theories/PropsQuoted.v
theories/Snapshot.v
theories/Restore.v
theories/Twins.v
theories/PropsSnapshot.v
theories/PropsSlots.v
theories/PropsAlign.v
theories/Debug.v
theories/PropsDebug.v
theories/PropsSize.v
theories/PropsCommute.v
theories/DocTests.v
theories/Join.v
theories/PropsJoin.v
theories/Nest.v
theories/PropsNest.v
theories/Crlf.v
theories/PropsCrlf.v
theories/Lead.v
theories/PropsLead.v
theories/Trail.v
theories/PropsTrail.v
theories/CrlfErr.v
theories/PropsCrlfErr.v
theories/Widen.v
theories/WidenErr.v
theories/PropsWiden.v
theories/Blanks.v
theories/PropsBlanks.v
theories/Inert.v
theories/PropsInert.v
